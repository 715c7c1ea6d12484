(** Properties C04 to C09: musical durations. *)
From Coq Require Import String Ascii List ZArith QArith Qpower Bool Lia Lqa.
From Verif Require Import Base Duration_Model Duration_Spec Duration_Proofs Duration_Text.
Import ListNotations.
Open Scope Z_scope.

(** ** C04: log/dots round trip *)

Theorem C04_duration_value : forall log dots, 0 <= dots -> 0 <= dots + log + 3 ->
  exists v, duration log dots = Ok v /\ (v == dotted log dots)%Q.
Proof. exact duration_value. Qed.
Print Assumptions C04_duration_value.

Theorem C04_duration_error : forall log dots,
  (dots < 0 \/ dots + log + 3 < 0) <-> duration log dots = Err ValueError.
Proof. exact duration_error. Qed.
Print Assumptions C04_duration_error.

(** Full statement: the same without [dots <= 52]; refuted below. *)
Theorem C04_log_dotcount_roundtrip_partial : forall log dots,
  0 <= dots <= 52 -> 0 <= dots + log + 3 ->
  exists v, duration log dots = Ok v /\ (v == dotted log dots)%Q /\ log_dotcount v = (log, dots).
Proof. exact log_dotcount_duration. Qed.
Print Assumptions C04_log_dotcount_roundtrip_partial.

Example C04_witness : duration (-2) 2 = Ok (56 # 8)%Q /\ log_dotcount (56 # 8) = (-2, 2).
Proof. split; reflexivity. Qed.

(** With 53 dots the float that frexp looks at has been rounded up. *)
Theorem C04_log_dotcount_roundtrip_refuted :
  exists v, duration 0 53 = Ok v /\ log_dotcount v = (-1, 0).
Proof. eexists. split; [reflexivity|vm_compute; reflexivity]. Qed.

(** ** C05: truncation *)

(** For values a float holds exactly, log_dotcount gives the greatest
    expressible duration not above the value. *)
Theorem C05_truncation_partial : forall v, (0 < v)%Q -> float53 v ->
  let (l, d) := log_dotcount v in
  0 <= d /\ (dotted l d <= v)%Q /\
  (forall l' d', 0 <= d' -> (dotted l' d' <= v)%Q -> (dotted l' d' <= dotted l d)%Q).
Proof. exact log_dotcount_trunc. Qed.
Print Assumptions C05_truncation_partial.

(** For every positive value, up to a relative error of 2^-53. *)
Theorem C05_truncation_any_partial : forall v, (0 < v)%Q ->
  let (l, d) := log_dotcount v in
  0 <= d /\ (dotted l d <= v * (1 + Qpower (2#1) (-53)))%Q /\
  (forall l' d', 0 <= d' <= 52 -> (dotted l' d' <= v)%Q -> (dotted l' d' <= dotted l d)%Q).
Proof. exact trunc_general. Qed.
Print Assumptions C05_truncation_any_partial.

Example C05_witness : (0 < 7 # 5)%Q /\ log_dotcount (7 # 5) = (0, 0) /\
  float53 (11 # 8) /\ log_dotcount (11 # 8) = (0, 0).
Proof.
  split; [reflexivity|]. split; [vm_compute; reflexivity|]. split; [|vm_compute; reflexivity].
  exists 11, (-3). split; [reflexivity|]. reflexivity.
Qed.

(** 1 - 2^-60 is rounded up to a whole note, which is longer than it. *)
Theorem C05_truncation_refuted : exists v l d w, (0 < v)%Q /\
  log_dotcount v = (l, d) /\ duration l d = Ok w /\ (v < w)%Q.
Proof.
  exists ((2 ^ 60 - 1) # (2 ^ 60))%Q, 0, 0, (8 # 8)%Q.
  split; [reflexivity|]. split; [vm_compute; reflexivity|]. split; reflexivity.
Qed.

(** ** C06: notation *)

(** Full statement: for any number of dots; [dots <= 52] is needed because of
    the float rounding (C04). *)
Theorem C06_notation_roundtrip_partial : forall v l d,
  -3 <= l -> 0 <= d <= 52 -> (v == dotted l d)%Q ->
  exists b, to_string v = Ok (b ++ repeat "."%char (Z.to_nat d)) /\
    (if l <? 0 then exists s, name_of l s /\ b = "\"%char :: s else numeral b (2 ^ l)) /\
    Qres_is (from_string (b ++ repeat "."%char (Z.to_nat d)) None) v /\
    Qres_is (from_string b (Some d)) v /\
    (forall b', b = "\"%char :: b' ->
       Qres_is (from_string (b' ++ repeat "."%char (Z.to_nat d)) None) v /\
       Qres_is (from_string b' (Some d)) v).
Proof. exact notation_roundtrip. Qed.
Print Assumptions C06_notation_roundtrip_partial.

Theorem C06_to_string_error : forall v, (0 < v)%Q -> float53 v ->
  (to_string v = Err IndexError <-> (16 <= v)%Q) /\ (forall e, to_string v = Err e -> e = IndexError).
Proof. exact to_string_error. Qed.
Print Assumptions C06_to_string_error.

Example C06_witness : to_string (31 # 4) = Ok (txt "\longa....") /\
  from_string (txt "longa....") None = Ok (248 # 32)%Q /\
  to_string (7 # 32) = Ok (txt "8..") /\ to_string 16 = Err IndexError.
Proof. repeat split; vm_compute; reflexivity. Qed.

(** ** C07: is_writable *)

(** Full statement: for every positive v; refuted below for values a float
    cannot hold. *)
Theorem C07_is_writable_exact_partial : forall v, (0 < v)%Q -> float53 v ->
  (is_writable v = true <-> ((1 # 1024) <= v)%Q /\ (v < 16)%Q /\ expressible v).
Proof. exact is_writable_exact. Qed.
Print Assumptions C07_is_writable_exact_partial.

Theorem C07_is_writable_negative : forall v, (v < 0)%Q -> float53 v -> is_writable v = false.
Proof. exact is_writable_negative. Qed.
Print Assumptions C07_is_writable_negative.

Example C07_witness : is_writable (7 # 16) = true /\ is_writable (5 # 16) = false /\
  is_writable 16 = false /\ is_writable (1 # 1024) = true /\ is_writable (1 # 2048) = false.
Proof. repeat split; vm_compute; reflexivity. Qed.

(** A zero duration counts as writable. *)
Theorem C07_is_writable_zero_refuted : is_writable 0 = true.
Proof. reflexivity. Qed.

Lemma not_dotted_near_one : ~ expressible ((2 ^ 60 - 1 - 2 ^ 3) # (2 ^ 60)).
Proof.
  intros (l & d & Hd & E).
  destruct (dotted_frexp l d _ Hd E) as [E1 E2].
  assert (X : (p2 (- d - 1) == 9 # (2 ^ 60))%Q).
  { assert (Y : (fst (frexpQ ((2 ^ 60 - 1 - 2 ^ 3) # (2 ^ 60))) == (2 ^ 60 - 9) # (2 ^ 60))%Q)
      by (vm_compute; reflexivity).
    rewrite Y in E1. assert (Z1 : ((2 ^ 60 - 9) # (2 ^ 60) == 1 - (9 # (2 ^ 60)))%Q) by (vm_compute; reflexivity).
    rewrite Z1 in E1. lra. }
  assert (-57 < - d - 1) by (apply p2_lt_down; rewrite X; vm_compute; reflexivity).
  assert (- d - 1 < -56) by (apply p2_lt_down; rewrite X; vm_compute; reflexivity).
  lia.
Qed.

Theorem C07_is_writable_exact_refuted : exists v,
  ((1 # 1024) <= v)%Q /\ (v < 16)%Q /\ is_writable v = true /\ ~ expressible v.
Proof.
  exists ((2 ^ 60 - 1 - 2 ^ 3) # (2 ^ 60))%Q.
  split; [vm_compute; discriminate|]. split; [reflexivity|]. split; [vm_compute; reflexivity|].
  exact not_dotted_near_one.
Qed.

(** ** C08: shifting and transforms.
    Missing for the full claim: more than 52 dots (the float is rounded, C04_log_dotcount_roundtrip_refuted). *)

Theorem C08_shift_value_partial : forall v l d ls ds, 0 <= d <= 52 -> (v == dotted l d)%Q ->
  0 <= Z.max 0 (d + ds) + (l + ls) + 3 ->
  Qres_is (shift_duration v ls ds) (dotted (l + ls) (Z.max 0 (d + ds))).
Proof. exact shift_value. Qed.
Print Assumptions C08_shift_value_partial.

Theorem C08_shift_scales_partial : forall v l d s, 0 <= d <= 52 -> (v == dotted l d)%Q ->
  0 <= d + (l + s) + 3 -> Qres_is (shift_duration v s 0) (v * Qpower (2#1) (- s)).
Proof.
  intros v l d s Hd E Dm. destruct (shift_value v l d s 0 Hd E) as (w & W1 & W2); [lia|].
  exists w. split; [exact W1|]. rewrite W2, Z.add_0_r, Z.max_r by lia. rewrite E. apply dotted_scale.
Qed.
Print Assumptions C08_shift_scales_partial.

Theorem C08_transform_monoid : forall a b c,
  transform_add a (transform_add b c) = transform_add (transform_add a b) c /\
  t_log (transform_add a transform_default) = t_log a /\
  t_dotcount (transform_add a transform_default) = t_dotcount a /\
  (t_scale (transform_add a transform_default) == t_scale a)%Q /\
  t_log (transform_add transform_default a) = t_log a /\
  t_dotcount (transform_add transform_default a) = t_dotcount a /\
  (t_scale (transform_add transform_default a) == t_scale a)%Q.
Proof.
  intros a b c. unfold transform_add, transform_default. cbn [t_log t_dotcount t_scale].
  split.
  - f_equal; try ring. destruct (t_scale a), (t_scale b), (t_scale c). unfold Qmult. cbn.
    f_equal; [ring|now rewrite Pos.mul_assoc].
  - repeat split; try lia; ring.
Qed.
Print Assumptions C08_transform_monoid.

(** A transform that evaluates to False changes nothing. *)
Theorem C08_transform_false : forall t dur sc, transform_bool t = false ->
  exists s, transform_apply t dur sc = Ok (dur, s) /\ (s == sc)%Q.
Proof.
  intros t dur sc H. unfold transform_bool in H. apply orb_false_iff in H. destruct H as [H H3].
  unfold transform_apply. rewrite H. cbn [bindr]. eexists. split; [reflexivity|].
  apply negb_false_iff, Qeq_bool_iff in H3. rewrite H3. ring.
Qed.
Print Assumptions C08_transform_false.

(** Applying the sum is applying one after the other as long as no step drops
    below zero dots (and dot counts stay within float precision). *)
Theorem C08_transform_compose_partial : forall t1 t2 v l d sc v1 s1 v2 s2,
  0 <= d <= 52 -> (v == dotted l d)%Q ->
  0 <= d + t_dotcount t1 <= 52 -> 0 <= d + t_dotcount t1 + t_dotcount t2 ->
  transform_apply t1 v sc = Ok (v1, s1) -> transform_apply t2 v1 s1 = Ok (v2, s2) ->
  exists w s, transform_apply (transform_add t1 t2) v sc = Ok (w, s) /\ (w == v2)%Q /\ (s == s2)%Q.
Proof. exact transform_compose. Qed.
Print Assumptions C08_transform_compose_partial.

Example C08_witness :
  let t1 := Transform 1 1 (2#3) in let t2 := Transform (-2) (-1) 1 in
  exists v1 s1 v2 s2, transform_apply t1 (1#4) 1 = Ok (v1, s1) /\ transform_apply t2 v1 s1 = Ok (v2, s2) /\
    (v1 == 3#16)%Q /\ (v2 == 1#2)%Q /\ (s2 == 2#3)%Q.
Proof.
  do 4 eexists. split; [vm_compute; reflexivity|]. split; [vm_compute; reflexivity|].
  split; [vm_compute; reflexivity|]. split; vm_compute; reflexivity.
Qed.

(** The length under a transform is the shifted value times both scalings. *)
Theorem C08_transform_length_partial : forall t v l d sc, 0 <= d <= 52 -> (v == dotted l d)%Q ->
  0 <= d + t_dotcount t -> 0 <= d + t_dotcount t + (l + t_log t) + 3 ->
  Qres_is (transform_length t v sc) (dotted (l + t_log t) (d + t_dotcount t) * sc * t_scale t).
Proof.
  intros t v l d sc Hd E D1 D2. unfold transform_length, transform_apply.
  destruct (_ || _) eqn:B.
  - destruct (shift_value v l d (t_log t) (t_dotcount t) Hd E) as (w & W1 & W2); [lia|].
    rewrite W1. cbn [bindr]. eexists. split; [reflexivity|]. rewrite W2, Z.max_r by lia. ring.
  - apply orb_false_iff in B. destruct B as [B1 B2]. apply negb_false_iff, Z.eqb_eq in B1, B2.
    rewrite B1, B2, !Z.add_0_r. cbn [bindr]. eexists. split; [reflexivity|]. rewrite E. ring.
Qed.
Print Assumptions C08_transform_length_partial.

Example C08_length_witness : Qres_is (transform_length (Transform 1 1 (2#3)) (1#4) (1#2)) (1#16)%Q.
Proof. eexists. split; [vm_compute; reflexivity|]. vm_compute. reflexivity. Qed.

(** When a step drops below zero dots the two differ. *)
Theorem C08_transform_compose_clipping_refuted :
  let t1 := Transform 0 (-1) 1 in let t2 := Transform 0 1 1 in
  exists v1 s1 v2 s2 w s, transform_apply t1 (1#4) 1 = Ok (v1, s1) /\
    transform_apply t2 v1 s1 = Ok (v2, s2) /\
    transform_apply (transform_add t1 t2) (1#4) 1 = Ok (w, s) /\ ~ (w == v2)%Q.
Proof.
  do 6 eexists. split; [vm_compute; reflexivity|]. split; [vm_compute; reflexivity|].
  split; [vm_compute; reflexivity|]. intros C. discriminate C.
Qed.

(** ** C09: which texts are durations *)

(** Full statement: every text that is not a power of two or a name (followed
    by dots) is rejected.  Proved: every text that is neither an integer
    literal nor a name is. *)
Theorem C09_invalid_rejected_partial : forall text core, core_of text core -> ~ int_literal core ->
  (forall bs s, Forall (fun c => c = "\"%char) bs -> core = bs ++ s -> forall l, ~ name_of l s) ->
  forall dotcount, from_string text dotcount = Err ValueError.
Proof. exact from_string_rejects. Qed.
Print Assumptions C09_invalid_rejected_partial.

(** Every text has such a significant part. *)
Theorem C09_core_exists : forall text, exists core, core_of text core.
Proof. intros text. eexists. apply core_exists. Qed.
Print Assumptions C09_core_exists.

(** A positive number is read as the note value of the greatest power of two
    not above it (so powers of two are read as themselves). *)
Theorem C09_number_value : forall text s k, core_of text s -> s <> [] -> Forall is_digit s ->
  0 < digits_value s -> 0 <= k ->
  Qres_is (from_string text (Some k)) (dotted (Z.log2 (digits_value s)) k).
Proof. exact from_string_int. Qed.
Print Assumptions C09_number_value.

Example C09_witness : from_string (txt "4.8") None = Err ValueError /\
  from_string (txt "") None = Err ValueError /\ from_string (txt "semibreve") None = Err ValueError /\
  from_string (txt " 8.. ") None = Ok (56 # 256)%Q.
Proof. repeat split; vm_compute; reflexivity. Qed.

Theorem C09_invalid_rejected_refuted :
  from_string (txt "3") None = Ok (8 # 16)%Q /\
  from_string (txt "0") None = Ok (8 # 4)%Q /\
  from_string (txt "-4") None = Ok (8 # 32)%Q.
Proof. repeat split; vm_compute; reflexivity. Qed.
