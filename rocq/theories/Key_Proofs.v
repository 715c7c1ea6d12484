(** Proofs about key signatures. *)
From Coq Require Import String Ascii List ZArith QArith Lqa Bool Lia.
From Coq Require Import ZifyBool ZifyNat.
From Verif Require Import Base Pitch_Model Pitch_Spec Pitch_Proofs Key_Model Key_Spec.
Import ListNotations.
Open Scope Z_scope.
Ltac Zify.zify_post_hook ::= Z.div_mod_to_equations.

Lemma or_major_id s : s <> [] -> or_major s = s.
Proof. destruct s; [congruence|reflexivity]. Qed.

Lemma zlen_pos {A} (l : list A) : l <> [] -> 0 < zlen l.
Proof. destruct l; [congruence|]. unfold zlen. cbn [List.length]. lia. Qed.

Lemma zrange_length n : List.length (zrange n) = Z.to_nat n.
Proof. unfold zrange. now rewrite map_length, seq_length. Qed.

Lemma nth_zrange {A} (f : Z -> A) n i d : 0 <= i < n -> nth (Z.to_nat i) (map f (zrange n)) d = f i.
Proof.
  intros H. rewrite (nth_indep _ d (f 0)) by (rewrite map_length, zrange_length; lia).
  rewrite map_nth. f_equal. unfold zrange. change 0 with (Z.of_nat 0). rewrite map_nth, seq_nth by lia. lia.
Qed.

Lemma alterations_length off s : s <> [] -> List.length (alterations off s) = List.length s.
Proof. intros N. unfold alterations. rewrite or_major_id by exact N. rewrite map_length, zrange_length. unfold zlen. lia. Qed.

Lemma alterations_periodic off k s : s <> [] -> alterations (off + k * zlen s) s = alterations off s.
Proof. intros N. unfold alterations. rewrite or_major_id by exact N. rewrite Z.mod_add; [reflexivity|]. pose proof (zlen_pos s N). lia. Qed.

Lemma div_split off i l : 0 < l -> (off + i) mod l = (off mod l + i) mod l /\ (off + i) / l = off / l + (off mod l + i) / l.
Proof.
  intros L. rewrite (Z.div_mod off l) at 1 3 by lia.
  replace (l * (off / l) + off mod l + i) with ((off mod l + i) + (off / l) * l) by lia.
  rewrite Z.mod_add, Z.div_add by lia. split; lia.
Qed.

Lemma alterations_nth off s i : s <> [] -> 0 <= i < zlen s ->
  (at_ (alterations off s) i == mode_degree s off i - mode_degree s 0 i)%Q.
Proof.
  intros N I. unfold at_, alterations. rewrite or_major_id by exact N. rewrite nth_zrange by exact I.
  unfold mode_degree, degree, scale_at. fold (zlen s). pose proof (zlen_pos s N) as L.
  destruct (div_split off i (zlen s) L) as [-> ->].
  rewrite !Z.add_0_l. rewrite (Z.mod_small i), (Z.mod_small 0), (Z.div_small i), (Z.div_small 0) by lia.
  replace (6 * (off / zlen s + (off mod zlen s + i) / zlen s))
    with (6 * (off / zlen s) + (off mod zlen s + i) / zlen s * 6) by lia.
  rewrite inject_Z_plus. rewrite Z.mul_0_r. change (inject_Z 0) with 0%Q. ring.
Qed.

Lemma rotate_nth {A} (l : list A) n i : l <> [] -> - zlen l <= n <= zlen l -> 0 <= i < zlen l ->
  nth_error (rotate l n) (Z.to_nat ((i + n) mod zlen l)) = nth_error l (Z.to_nat i).
Proof.
  intros NE R I. pose proof (zlen_pos l NE) as L. unfold zlen in *.
  assert (X : forall k j, (k <= List.length l)%nat -> (j < List.length l)%nat ->
    (if (j <? k)%nat then nth_error (skipn k l ++ firstn k l) (List.length l - k + j)%nat = nth_error l j
     else nth_error (skipn k l ++ firstn k l) (j - k)%nat = nth_error l j)).
  { intros k j K J. destruct (Nat.ltb_spec j k).
    - rewrite nth_error_app2 by (rewrite skipn_length; lia). rewrite skipn_length.
      replace (List.length l - k + j - (List.length l - k))%nat with j by lia.
      transitivity (nth_error (firstn k l ++ skipn k l) j); [|now rewrite firstn_skipn].
      now rewrite nth_error_app1 by (rewrite firstn_length; lia).
    - rewrite nth_error_app1 by (rewrite skipn_length; lia).
      transitivity (nth_error (firstn k l ++ skipn k l) j); [|now rewrite firstn_skipn].
      rewrite nth_error_app2 by (rewrite firstn_length; lia). rewrite firstn_length. f_equal. lia. }
  unfold rotate. destruct (Z.ltb_spec 0 n) as [P|P].
  - set (k := (List.length l - Z.to_nat n)%nat). specialize (X k (Z.to_nat i) ltac:(lia) ltac:(lia)).
    destruct (Nat.ltb_spec (Z.to_nat i) k).
    + rewrite <- X. f_equal. rewrite Z.mod_small by lia. lia.
    + rewrite <- X. f_equal. replace (i + n) with ((i + n - Z.of_nat (List.length l)) + 1 * Z.of_nat (List.length l)) by lia.
      rewrite Z.mod_add by lia. rewrite Z.mod_small by lia. lia.
  - set (k := Z.to_nat (- n)). specialize (X k (Z.to_nat i) ltac:(lia) ltac:(lia)).
    destruct (Nat.ltb_spec (Z.to_nat i) k).
    + rewrite <- X. f_equal. replace (i + n) with ((i + n + Z.of_nat (List.length l)) + (-1) * Z.of_nat (List.length l)) by lia.
      rewrite Z.mod_add by lia. rewrite Z.mod_small by lia. lia.
    + rewrite <- X. f_equal. rewrite Z.mod_small by lia. lia.
Qed.

Lemma rotate_length {A} (l : list A) n : List.length (rotate l n) = List.length l.
Proof. unfold rotate. destruct (0 <? n); rewrite app_length, skipn_length, firstn_length; lia. Qed.

Lemma combine_nth_error {A B} (a : list A) (b : list B) i x y : nth_error a i = Some x -> nth_error b i = Some y -> nth_error (combine a b) i = Some (x, y).
Proof. revert b i. induction a as [|u a IH]; intros [|v b] [|i]; cbn; try discriminate; [congruence|apply IH]. Qed.

Lemma at_nth_error l i x : nth_error l (Z.to_nat i) = Some x -> at_ l i = x.
Proof. intros H. unfold at_. now apply nth_error_nth. Qed.

Lemma nth_error_at l i : 0 <= i < zlen l -> nth_error l (Z.to_nat i) = Some (at_ l i).
Proof. intros H. unfold at_. apply nth_error_nth'. unfold zlen in H. lia. Qed.

Lemma accidentals_length note alter m s : s <> [] -> List.length m = List.length s ->
  List.length (accidentals note alter (Some m) s) = List.length s.
Proof.
  intros N M. unfold accidentals. rewrite or_major_id by exact N. rewrite rotate_length, map_length, combine_length, alterations_length by exact N. lia.
Qed.

Lemma accidentals_nth note alter m s i : s <> [] -> List.length m = List.length s -> 0 <= i < zlen s ->
  (degree s (note + i) + at_ (accidentals note alter (Some m) s) ((note + i) mod zlen s)
   == degree s note + alter + (mode_degree s 0 i + at_ m i))%Q.
Proof.
  intros N M I. pose proof (zlen_pos s N) as L. unfold accidentals. rewrite or_major_id by exact N.
  set (accs := map _ _). assert (LA : zlen accs = zlen s).
  { unfold accs, zlen. rewrite map_length, combine_length, alterations_length by exact N. lia. }
  assert (NA : accs <> []). { intros E. rewrite E in LA. unfold zlen in LA at 1. cbn in LA. lia. }
  assert (E : nth_error accs (Z.to_nat i) = Some (at_ m i - at_ (alterations (note mod zlen s) s) i + alter)%Q).
  { unfold accs. rewrite nth_error_map. rewrite (combine_nth_error _ _ _ (at_ m i) (at_ (alterations (note mod zlen s) s) i)).
    - reflexivity.
    - apply nth_error_at. unfold zlen in *. lia.
    - apply nth_error_at. unfold zlen in *. rewrite alterations_length by exact N. lia. }
  assert (R := rotate_nth accs (note mod zlen s) i NA ltac:(rewrite LA; pose proof (Z.mod_pos_bound note (zlen s) L); lia) ltac:(rewrite LA; lia)).
  rewrite E, LA in R. replace ((i + note mod zlen s) mod zlen s) with ((note + i) mod zlen s) in R.
  2:{ destruct (div_split note i (zlen s) L) as [-> _]. now rewrite (Z.add_comm i). }
  rewrite (at_nth_error _ _ _ R), (alterations_nth _ s i N I).
  unfold mode_degree. replace (degree s (note mod zlen s + i)) with (degree s (note mod zlen s + i)) by reflexivity.
  assert (P : forall k, (degree s (note mod zlen s + k) == degree s (note + k) - inject_Z (6 * (note / zlen s)))%Q).
  { intros k. unfold degree. fold (zlen s). destruct (div_split note k (zlen s) L) as [-> ->].
    rewrite (Z.mul_add_distr_l 6 (note / zlen s)), inject_Z_plus. ring. }
  rewrite (P i). rewrite <- (Z.add_0_r (note mod zlen s)), (P 0). rewrite !Z.add_0_r. rewrite !Z.add_0_l. ring.
Qed.

Lemma at_zero_alterations s i : s <> [] -> 0 <= i < zlen s -> (at_ (alterations 0 s) i == 0)%Q.
Proof. intros N I. rewrite alterations_nth by assumption. ring. Qed.

(** ** tonic *)

Lemma major_degree_step n k : (degree major_scale (n + 7 * k) == degree major_scale n + inject_Z (6 * k))%Q.
Proof.
  unfold degree. change (Z.of_nat (List.length major_scale)) with 7. replace (n + 7 * k) with (n + k * 7) by lia.
  rewrite Z.mod_add, Z.div_add by lia. rewrite Z.mul_add_distr_l, inject_Z_plus. ring.
Qed.

Lemma tonic_loop_spec d k : forall note alter, 0 <= note < 7 ->
  let t := tonic_loop major_scale d k note alter in
  fst t = (note + 4 * d * Z.of_nat k) mod 7 /\
  (snd t == alter + (7#2) * inject_Z (d * Z.of_nat k) - (degree major_scale (note + 4 * d * Z.of_nat k) - degree major_scale note))%Q.
Proof.
  induction k as [|k IH]; intros note alter N; cbn [tonic_loop].
  - cbn [fst snd]. rewrite !Z.mul_0_r, Z.add_0_r. rewrite Z.mod_small by lia. split; [reflexivity|]. change (inject_Z 0) with 0%Q. ring.
  - change (zlen major_scale) with 7. set (m := (note + d * 4) mod 7). set (o := (note + d * 4) / 7).
    destruct (IH m (alter + (inject_Z d * (7 # 2) - inject_Z (o * 6) - scale_at major_scale m + scale_at major_scale note))%Q
      ltac:(apply Z.mod_pos_bound; lia)) as [A B].
    split.
    + rewrite A. unfold m. rewrite Zplus_mod_idemp_l. f_equal. lia.
    + rewrite B.
      assert (E : note + 4 * d * Z.of_nat (S k) = (m + 4 * d * Z.of_nat k) + 7 * o).
      { unfold m, o. pose proof (Z.div_mod (note + d * 4) 7). lia. }
      rewrite E, major_degree_step.
      assert (D1 : (degree major_scale m == scale_at major_scale m)%Q).
      { unfold degree. change (Z.of_nat (List.length major_scale)) with 7.
        rewrite (Z.mod_small m), (Z.div_small m) by (apply Z.mod_pos_bound; lia). change (inject_Z (6 * 0)) with 0%Q. unfold scale_at. ring. }
      assert (D2 : (degree major_scale note == scale_at major_scale note)%Q).
      { unfold degree. change (Z.of_nat (List.length major_scale)) with 7.
        rewrite (Z.mod_small note), (Z.div_small note) by lia. change (inject_Z (6 * 0)) with 0%Q. unfold scale_at. ring. }
      rewrite D1, D2. replace (d * Z.of_nat (S k)) with (d + d * Z.of_nat k) by lia. rewrite inject_Z_plus.
      rewrite (Z.mul_comm 6 o). ring.
Qed.

Lemma tonic_spec sf s : (s = [] \/ s = major_scale) ->
  fst (tonic sf s) = (4 * sf) mod 7 /\ (snd (tonic sf s) == (7#2) * inject_Z sf - degree major_scale (4 * sf))%Q.
Proof.
  intros H. unfold tonic. assert (OM : or_major s = major_scale) by (destruct H; subst; reflexivity). rewrite OM.
  assert (X : forall d, d * sf = Z.abs sf -> d * (d * sf) = sf ->
    let t := tonic_loop major_scale d (Z.to_nat (d * sf)) 0 0 in
    fst t = (4 * sf) mod 7 /\ (snd t == (7#2) * inject_Z sf - degree major_scale (4 * sf))%Q).
  { intros d D1 D2 t. destruct (tonic_loop_spec d (Z.to_nat (d * sf)) 0 0 ltac:(lia)) as [A B].
    fold t in A, B. rewrite Z2Nat.id in A, B by lia.
    replace (0 + 4 * d * (d * sf)) with (4 * sf) in A, B by lia. rewrite D2 in B. split; [exact A|]. rewrite B.
    change (degree major_scale 0) with (0 + 0)%Q. ring. }
  destruct (Z.ltb_spec 0 sf); [apply X; lia|]. destruct (Z.ltb_spec sf 0); [apply X; lia|].
  assert (sf = 0) by lia. subst sf. cbn. split; reflexivity.
Qed.


Definition const_part (r m letter : Z) : Q :=
  let n := (4 * (r + fifths m)) mod 7 in let j := (letter - n) mod 7 in
  (degree major_scale n + ((7#2) * inject_Z (r + fifths m) - degree major_scale (4 * (r + fifths m))) +
   mode_degree major_scale m j - degree major_scale (n + j))%Q.

Lemma const_part_spec r m letter : 0 <= r < 7 -> 0 <= m < 7 -> 0 <= letter < 7 ->
  (const_part r m letter == inject_Z (sharps_on r letter) / 2)%Q.
Proof.
  intros R M L.
  assert (C : forallb (fun r => forallb (fun m => forallb (fun letter =>
    Qeq_bool (const_part r m letter) (inject_Z (sharps_on r letter) / 2)) [0;1;2;3;4;5;6]) [0;1;2;3;4;5;6]) [0;1;2;3;4;5;6] = true) by (vm_compute; reflexivity).
  assert (I : forall x, 0 <= x < 7 -> In x [0;1;2;3;4;5;6]) by (intros x X; cbn; lia).
  rewrite forallb_forall in C. specialize (C r (I r R)). rewrite forallb_forall in C. specialize (C m (I m M)).
  rewrite forallb_forall in C. specialize (C letter (I letter L)). now apply Qeq_bool_iff.
Qed.

Lemma signature_spec sf m letter s : (s = [] \/ s = major_scale) -> 0 <= m < 7 -> 0 <= letter < 7 ->
  (at_ (accidentals (fst (tonic (sf + fifths m) s)) (snd (tonic (sf + fifths m) s)) (Some (alterations m [])) major_scale) letter
   == inject_Z (sharps_on sf letter) / 2)%Q.
Proof.
  intros H M L. destruct (tonic_spec (sf + fifths m) s H) as [A B]. set (t := tonic _ s) in *.
  assert (NE : major_scale <> []) by discriminate.
  pose proof (accidentals_nth (fst t) (snd t) (alterations m []) major_scale ((letter - fst t) mod 7) NE
    (alterations_length m major_scale NE) ltac:(change (zlen major_scale) with 7; apply Z.mod_pos_bound; lia)) as C.
  change (zlen major_scale) with 7 in C.
  rewrite (alterations_nth m major_scale) in C by (try exact NE; change (zlen major_scale) with 7; apply Z.mod_pos_bound; lia).
  replace ((fst t + (letter - fst t) mod 7) mod 7) with letter in C by (rewrite Zplus_mod_idemp_r; replace (fst t + (letter - fst t)) with letter by lia; rewrite Z.mod_small; lia).
  assert (C' : (at_ (accidentals (fst t) (snd t) (Some (alterations m [])) major_scale) letter ==
     degree major_scale (fst t) + snd t + mode_degree major_scale m ((letter - fst t) mod 7) - degree major_scale (fst t + (letter - fst t) mod 7))%Q).
  { apply (Qplus_inj_l _ _ (degree major_scale (fst t + (letter - fst t) mod 7))). rewrite C. ring. }
  rewrite C'. clear C C'. rewrite B, A.
  set (q := sf / 7). set (r := sf mod 7).
  assert (E : sf = r + 7 * q) by (unfold r, q; lia). assert (R : 0 <= r < 7) by (apply Z.mod_pos_bound; lia).
  clearbody q r. subst sf.
  replace (4 * (r + 7 * q + fifths m)) with (4 * (r + fifths m) + 7 * (4 * q)) by lia.
  rewrite major_degree_step. replace (4 * (r + fifths m) + 7 * (4 * q)) with (4 * (r + fifths m) + (4 * q) * 7) by lia. rewrite Z.mod_add by lia.
  replace (r + 7 * q + fifths m) with (r + fifths m + 7 * q) by lia.
  replace (sharps_on (r + 7 * q) letter) with (sharps_on r letter + q)
    by (unfold sharps_on; replace (r + 7 * q + 6 - sharp_order letter) with (r + 6 - sharp_order letter + q * 7) by lia; rewrite Z.div_add; lia).
  pose proof (const_part_spec r m letter R M L) as K. unfold const_part in K. cbv zeta in K.
  rewrite (inject_Z_plus (sharps_on r letter) q).
  transitivity (inject_Z (sharps_on r letter) / 2 + inject_Z q / 2)%Q; [|field].
  rewrite <- K. rewrite (inject_Z_plus (r + fifths m) (7 * q)), (inject_Z_mult 6), (inject_Z_mult 4), (inject_Z_mult 7).
  change (inject_Z 7) with 7%Q. change (inject_Z 6) with 6%Q. change (inject_Z 4) with 4%Q. field.
Qed.

Lemma tonic_signature_sum sf : (sum (map (fun l => inject_Z (sharps_on sf l) / 2)%Q [0;1;2;3;4;5;6]%Z) == inject_Z sf / 2)%Q.
Proof.
  cbn [map sum]. assert (E : sharps_on sf 0 + sharps_on sf 1 + sharps_on sf 2 + sharps_on sf 3 + sharps_on sf 4 + sharps_on sf 5 + sharps_on sf 6 = sf).
  { unfold sharps_on, sharp_order. change (nth (Z.to_nat 0) [1;3;5;0;2;4;6] 0) with 1. change (nth (Z.to_nat 1) [1;3;5;0;2;4;6] 0) with 3.
    change (nth (Z.to_nat 2) [1;3;5;0;2;4;6] 0) with 5. change (nth (Z.to_nat 3) [1;3;5;0;2;4;6] 0) with 0.
    change (nth (Z.to_nat 4) [1;3;5;0;2;4;6] 0) with 2. change (nth (Z.to_nat 5) [1;3;5;0;2;4;6] 0) with 4.
    change (nth (Z.to_nat 6) [1;3;5;0;2;4;6] 0) with 6. lia. }
  rewrite <- E at 8. rewrite !inject_Z_plus. field.
Qed.

(** ** KeySignature.pitch *)

(** Entry [i] sounds as semitone [i], in some octave. *)
Definition sounds (s : list Q) (i : Z) (na : Z * Q) : Prop :=
  0 <= fst na < zlen s /\ exists k, ((scale_at s (fst na) + snd na) * 2 == inject_Z (i + 12 * k))%Q.

Lemma chrom_scale_nth s flats : s <> [] -> forall k step note, 0 <= note < zlen s ->
  forall i na, nth_error (chrom_scale s flats k step note) i = Some na ->
  0 <= fst na < zlen s /\ (scale_at s (fst na) + snd na == inject_Z (step + Z.of_nat i) / 2)%Q.
Proof.
  intros NE. induction k as [|k IH]; intros step note N i na; cbn [chrom_scale]; [destruct i; discriminate|].
  set (note' := if _ && _ then _ else _).
  assert (N' : 0 <= note' < zlen s).
  { unfold note'. destruct (Z.ltb_spec note (zlen s - 1)); cbn [andb]; [|lia]. destruct (existsb _ _ || _); lia. }
  destruct i as [|i]; cbn [nth_error].
  - intros [= <-]. cbn [fst snd]. split; [exact N'|]. replace (step + Z.of_nat 0) with step by lia. ring.
  - intros E. destruct (IH (step + 1) note' N' i na E) as [A B]. split; [exact A|]. rewrite B.
    replace (step + 1 + Z.of_nat i) with (step + Z.of_nat (S i)) by lia. reflexivity.
Qed.

Lemma chrom_scale_length s flats k : forall step note, List.length (chrom_scale s flats k step note) = k.
Proof. induction k as [|k IH]; intros; cbn [chrom_scale List.length]; [reflexivity|]. now rewrite IH. Qed.

Lemma chromatic_scale_length note alter s flats : List.length (chromatic_scale note alter s flats) = 12%nat.
Proof. unfold chromatic_scale. now rewrite rotate_length, map_length, chrom_scale_length. Qed.

(** The rotation is right up to an octave in either direction. *)
Lemma chromatic_sounds note alter s flats sem : s <> [] -> 0 <= note < zlen s ->
  ((alter + (scale_at s note - scale_at s 0)) * 2 == inject_Z sem)%Q -> -12 <= sem <= 12 ->
  forall i, 0 <= i < 12 -> exists na, nth_error (chromatic_scale note alter s flats) (Z.to_nat i) = Some na /\ sounds s i na.
Proof.
  intros NE N S B i I. unfold chromatic_scale. rewrite or_major_id by exact NE.
  set (alter' := (alter + _)%Q) in *. rewrite (Qtrunc_int _ _ S).
  set (notes := map _ _). assert (LN : zlen notes = 12) by (unfold notes, zlen; rewrite map_length, chrom_scale_length; reflexivity).
  assert (NN : notes <> []) by (intros E; rewrite E in LN; discriminate).
  set (j := (i - sem) mod 12). assert (J : 0 <= j < 12) by (apply Z.mod_pos_bound; lia).
  pose proof (rotate_nth notes sem j NN ltac:(lia) ltac:(lia)) as R. rewrite LN in R.
  replace ((j + sem) mod 12) with i in R by (unfold j; rewrite Zplus_mod_idemp_l; replace (i - sem + sem) with i by lia; rewrite Z.mod_small; lia).
  rewrite R. unfold notes. rewrite nth_error_map.
  destruct (nth_error (chrom_scale s flats 12 0 0) (Z.to_nat j)) as [[n a]|] eqn:E.
  2:{ apply nth_error_None in E. rewrite chrom_scale_length in E. lia. }
  destruct (chrom_scale_nth s flats NE 12%nat 0 0 ltac:(pose proof (zlen_pos s NE); lia) _ _ E) as [A C]. cbn [fst snd] in A, C.
  cbn [option_map]. eexists. split; [reflexivity|]. unfold chrom_transpose. split; cbn [fst snd].
  - apply Z.mod_pos_bound. lia.
  - exists ((j + sem - i) / 12 - (n + note) / zlen s).
    assert (K : j + sem - i = 12 * ((j + sem - i) / 12)) by (clear -j; pose proof (Z.div_mod (i - sem) 12 ltac:(lia)) as DM; fold j in DM; replace (j + sem - i) with ((- ((i - sem) / 12)) * 12) by lia; rewrite Z.div_mul; lia).
    set (m := (n + note) mod zlen s). set (o := (n + note) / zlen s).
    replace (i + 12 * ((j + sem - i) / 12 - o)) with (j + sem + - (12 * o)) by lia.
    rewrite !inject_Z_plus, <- S. rewrite inject_Z_opp, (inject_Z_mult 12), (inject_Z_mult o).
    change (inject_Z 12) with 12%Q. change (inject_Z 6) with 6%Q. change (inject_Z 6) with 6%Q.
    replace (inject_Z j) with (inject_Z (0 + Z.of_nat (Z.to_nat j))) by (f_equal; lia).
    setoid_replace (inject_Z (0 + Z.of_nat (Z.to_nat j))) with ((scale_at s n + a) * 2)%Q by (rewrite C; field). ring.
Qed.

Lemma set_nth_length {A} (l : list A) n x : List.length (set_nth l n x) = List.length l.
Proof. revert n. induction l as [|y r IH]; intros [|n]; cbn; auto. Qed.

Lemma set_nth_error {A} (l : list A) n x i : (n < List.length l)%nat ->
  nth_error (set_nth l n x) i = if Nat.eqb i n then Some x else nth_error l i.
Proof.
  revert n i. induction l as [|y r IH]; intros [|n] [|i] H; cbn in *; try lia; try reflexivity. apply IH. lia.
Qed.

Lemma fill_in_spec s notes : forall steps, List.length steps = 12%nat ->
  (forall i, 0 <= i < 12 -> exists na, nth_error steps (Z.to_nat i) = Some na /\ sounds s i na) ->
  (forall n b a, In (n, (b, a)) notes -> 0 <= n < zlen s /\ (b == scale_at s n)%Q /\ half (b + a)) ->
  let l := fill_in notes steps in
  List.length l = 12%nat /\
  forall i, 0 <= i < 12 -> exists na, nth_error l (Z.to_nat i) = Some na /\ sounds s i na /\
    ((exists b, In (fst na, (b, snd na)) notes) \/
     ((forall n b a, In (n, (b, a)) notes -> Qtrunc ((b + a) * 2) mod 12 <> i) /\ nth_error steps (Z.to_nat i) = Some na)).
Proof.
  induction notes as [|[n [b a]] r IH]; intros steps LS SS NS; cbn [fill_in].
  - split; [exact LS|]. intros i I. destruct (SS i I) as (na & A & B). exists na. split; [exact A|]. split; [exact B|].
    right. split; [intros ? ? ? []|exact A].
  - destruct (NS n b a (or_introl eq_refl)) as (N & BS & (k & K)).
    set (st := Qtrunc ((b + a) * 2) mod 12). assert (ST : 0 <= st < 12) by (apply Z.mod_pos_bound; lia).
    assert (SE : st = k mod 12) by (unfold st; now rewrite (Qtrunc_int _ _ K)).
    destruct (IH (set_nth steps (Z.to_nat st) (n, a))) as [L X].
    + now rewrite set_nth_length.
    + intros i I. rewrite set_nth_error by lia. destruct (Nat.eqb_spec (Z.to_nat i) (Z.to_nat st)) as [E|E].
      * eexists. split; [reflexivity|]. split; cbn [fst snd]; [exact N|]. exists (k / 12). rewrite <- BS.
        rewrite K. assert (i = k mod 12) by lia. subst i. replace (k mod 12 + 12 * (k / 12)) with k by lia. reflexivity.
      * apply SS. exact I.
    + intros n' b' a' J. apply NS. now right.
    + split; [exact L|]. intros i I. destruct (X i I) as (na & A & B & C). exists na. split; [exact A|]. split; [exact B|].
      destruct C as [(b' & C)|[C D]]; [left; exists b'; now right|].
      rewrite set_nth_error in D by lia. destruct (Nat.eqb_spec (Z.to_nat i) (Z.to_nat st)) as [E|E].
      * injection D as <-. left. exists b. now left.
      * right. split; [|exact D]. intros n' b' a' [J|J]; [|eapply C; exact J].
        injection J as <- <- <-. fold st. lia.
Qed.

Lemma combine_range_in {A} (l : list A) n x : In (n, x) (combine (zrange (zlen l)) l) -> 0 <= n < zlen l /\ nth_error l (Z.to_nat n) = Some x.
Proof.
  intros H. apply (In_nth_error) in H as (i & H).
  assert (LI : (i < List.length l)%nat).
  { assert (H1 : nth_error (combine (zrange (zlen l)) l) i <> None) by congruence. apply nth_error_Some in H1. rewrite combine_length in H1. lia. }
  destruct (nth_error l i) as [y|] eqn:E; [|apply nth_error_None in E; lia].
  assert (R : nth_error (zrange (zlen l)) i = Some (Z.of_nat i)).
  { unfold zrange. rewrite nth_error_map. rewrite (nth_error_nth' _ 0%nat) by (rewrite seq_length; unfold zlen; lia).
    rewrite seq_nth by (unfold zlen; lia). reflexivity. }
  rewrite (combine_nth_error _ _ _ _ _ R E) in H. injection H as <- <-. unfold zlen. split; [lia|]. now rewrite Nat2Z.id.
Qed.

Lemma in_combine_range {A} (l : list A) i x : 0 <= i < zlen l -> nth_error l (Z.to_nat i) = Some x -> In (i, x) (combine (zrange (zlen l)) l).
Proof.
  intros I E. eapply nth_error_In with (n := Z.to_nat i). apply combine_nth_error; [|exact E].
  unfold zrange. rewrite nth_error_map. rewrite (nth_error_nth' _ 0%nat) by (rewrite seq_length; lia).
  rewrite seq_nth by lia. cbn. f_equal. lia.
Qed.

Lemma nth_error_combine_inv {A B} (a : list A) (b : list B) i x y : nth_error (combine a b) i = Some (x, y) -> nth_error a i = Some x /\ nth_error b i = Some y.
Proof. revert b i. induction a as [|u a IH]; intros [|v b] [|i]; cbn; try discriminate; [intros [= <- <-]; auto|apply IH]. Qed.

Lemma half_plus a b : half a -> half b -> half (a + b).
Proof. intros [k K] [m M]. exists (k + m). rewrite inject_Z_plus, <- K, <- M. ring. Qed.
Lemma half_opp a : half a -> half (- a).
Proof. intros [k K]. exists (- k). rewrite inject_Z_opp, <- K. ring. Qed.
Lemma half_comp a b : (a == b)%Q -> half a -> half b.
Proof. intros E [k K]. exists k. now rewrite <- E. Qed.

Lemma key_steps_spec note alter m s flats sem f0 : s <> [] -> 0 <= note < zlen s -> List.length m = List.length s ->
  Forall half s -> Forall half m -> half alter ->
  ((alter + (scale_at s note - scale_at s 0)) * 2 == inject_Z sem)%Q -> -12 <= sem <= 12 ->
  let acc := accidentals note alter (Some m) s in
  forall i, 0 <= i < 12 -> exists na, nth_error (key_steps (KeySignature note alter s acc f0) flats) (Z.to_nat i) = Some na /\
    sounds s i na /\
    ((snd na = at_ acc (fst na)) \/ (forall n, 0 <= n < zlen s -> forall k, ~ ((scale_at s n + at_ acc n) * 2 == inject_Z (i + 12 * k))%Q)).
Proof.
  intros NE N LM HS HM HA S B acc.
  assert (LA : zlen acc = zlen s) by (unfold acc, zlen; rewrite accidentals_length; auto).
  assert (HACC : forall n, 0 <= n < zlen s -> half (scale_at s n + at_ acc n)).
  { intros n I. pose proof (zlen_pos s NE) as L.
    assert (HD : forall k, half (degree s k)).
    { intros k. unfold degree. fold (zlen s). apply half_plus.
      - rewrite Forall_forall in HS. apply HS. apply nth_In. pose proof (Z.mod_pos_bound k (zlen s) L). unfold zlen in *. lia.
      - exists (12 * (k / zlen s)). rewrite !inject_Z_mult. change (inject_Z 12) with 12%Q. change (inject_Z 6) with 6%Q. ring. }
    pose proof (accidentals_nth note alter m s ((n - note) mod zlen s) NE LM (Z.mod_pos_bound _ _ L)) as X. fold acc in X.
    rewrite Zplus_mod_idemp_r in X. replace (note + (n - note)) with n in X by lia. rewrite (Z.mod_small n) in X by lia.
    assert (HAN : half (at_ acc n)).
    { eapply half_comp with (a := (degree s note + alter + (mode_degree s 0 ((n - note) mod zlen s) + at_ m ((n - note) mod zlen s)) + - degree s (note + (n - note) mod zlen s))%Q).
      - rewrite <- X. ring.
      - apply half_plus; [apply half_plus; [apply half_plus; [apply HD|exact HA]|apply half_plus]|apply half_opp, HD].
        + unfold mode_degree. apply half_plus; [apply HD|apply half_opp, HD].
        + rewrite Forall_forall in HM. apply HM. apply nth_In. pose proof (Z.mod_pos_bound (n - note) (zlen s) L). unfold zlen in *. lia. }
    apply half_plus; [|exact HAN]. rewrite Forall_forall in HS. apply HS. apply nth_In. unfold zlen in *. lia. }
  assert (LC : zlen (combine s acc) = zlen s) by (unfold zlen in *; rewrite combine_length; lia).
  assert (INN : forall n b a, In (n, (b, a)) (combine (zrange (zlen s)) (combine s acc)) ->
     0 <= n < zlen s /\ b = scale_at s n /\ a = at_ acc n).
  { intros n b a J. rewrite <- LC in J. destruct (combine_range_in _ _ _ J) as [R E]. rewrite LC in R.
    apply nth_error_combine_inv in E as [E1 E2]. split; [exact R|]. split; symmetry.
    - unfold scale_at. now apply nth_error_nth.
    - now apply at_nth_error. }
  intros i I. unfold key_steps. cbn [k_scale k_accidentals k_note k_alter].
  destruct (fill_in_spec s (combine (zrange (zlen s)) (combine s acc)) (chromatic_scale note alter s flats)) as [_ X].
  - apply chromatic_scale_length.
  - eapply chromatic_sounds; eassumption.
  - intros n b a J. destruct (INN n b a J) as (R & -> & ->). split; [exact R|]. split; [reflexivity|]. now apply HACC.
  - destruct (X i I) as (na & A & C & D). exists na. split; [exact A|]. split; [exact C|].
    destruct D as [(b & J)|[D _]].
    + left. now destruct (INN _ _ _ J) as (_ & _ & E).
    + right. intros n R k E. apply (D n (scale_at s n) (at_ acc n)).
      * rewrite <- LC. apply in_combine_range; [lia|]. apply combine_nth_error.
        -- unfold scale_at. apply nth_error_nth'. unfold zlen in R. lia.
        -- apply nth_error_at. lia.
      * rewrite (Qtrunc_int _ _ E). replace (i + 12 * k) with (i + k * 12) by lia. rewrite Z.mod_add by lia. apply Z.mod_small. lia.
Qed.

(** The octave is right for alterations of at most five semitones. *)
Lemma step_octave_spec n a i k : 0 <= n < 7 -> 0 <= i < 12 -> ((scale_at major_scale n + a) * 2 == inject_Z (i + 12 * k))%Q ->
  (-(5#2) <= a <= 5#2)%Q -> step_octave (inject_Z n + a) = - k.
Proof.
  intros N I E [B1 B2].
  assert (EZ : exists z, (a * 2 == inject_Z z)%Q /\ -5 <= z <= 5).
  { assert (HS : half (scale_at major_scale n)).
    { assert (D : n = 0 \/ n = 1 \/ n = 2 \/ n = 3 \/ n = 4 \/ n = 5 \/ n = 6) by lia.
      destruct D as [->|[->|[->|[->|[->|[->| ->]]]]]]; [exists 0|exists 2|exists 4|exists 5|exists 7|exists 9|exists 11]; vm_compute; reflexivity. }
    destruct HS as [h H]. exists (i + 12 * k - h). assert (X : (a * 2 == inject_Z (i + 12 * k - h))%Q).
    { unfold Z.sub at 1. rewrite inject_Z_plus, inject_Z_opp, <- H, <- E. ring. }
    split; [exact X|]. split; rewrite Zle_Qle, <- X.
    - change (inject_Z (-5)) with (-5#1)%Q. lra.
    - change (inject_Z 5) with 5%Q. lra. }
  destruct EZ as (z & Z1 & Z2).
  assert (T : (a == inject_Z z / 2)%Q) by (rewrite <- Z1; field).
  assert (F : step_octave (inject_Z n + a) = if 12 <? 2 * n + z then -1 else if 2 * n + z <? 0 then 1 else 0).
  { assert (V : (inject_Z n + a == inject_Z (2 * n + z) * (1#2))%Q) by (rewrite T, inject_Z_plus, inject_Z_mult; change (inject_Z 2) with 2%Q; field).
    unfold step_octave. destruct (Qlt_le_dec 6 (inject_Z n + a)) as [G|G]; rewrite V in G.
    - assert (inject_Z 12 < inject_Z (2 * n + z))%Q by (change (inject_Z 12) with 12%Q; lra). rewrite <- Zlt_Qlt in H. destruct (Z.ltb_spec 12 (2 * n + z)); lia.
    - assert (inject_Z (2 * n + z) <= inject_Z 12)%Q by (change (inject_Z 12) with 12%Q; lra). rewrite <- Zle_Qle in H.
      destruct (Z.ltb_spec 12 (2 * n + z)); [lia|].
      destruct (Qlt_le_dec (inject_Z n + a) 0) as [G'|G']; rewrite V in G'.
      + assert (inject_Z (2 * n + z) < inject_Z 0)%Q by (change (inject_Z 0) with 0%Q; lra). rewrite <- Zlt_Qlt in H1. destruct (Z.ltb_spec (2 * n + z) 0); lia.
      + assert (inject_Z 0 <= inject_Z (2 * n + z))%Q by (change (inject_Z 0) with 0%Q; lra). rewrite <- Zle_Qle in H1. destruct (Z.ltb_spec (2 * n + z) 0); lia. }
  rewrite F. clear F B1 B2.
  assert (EI : (scale_at major_scale n * 2 + inject_Z z == inject_Z (i + 12 * k))%Q) by (rewrite <- Z1, <- E; ring). clear E T Z1.
  assert (D : n = 0 \/ n = 1 \/ n = 2 \/ n = 3 \/ n = 4 \/ n = 5 \/ n = 6) by lia.
  assert (Y : forall h, (scale_at major_scale n * 2 == inject_Z h)%Q -> h + z = i + 12 * k).
  { intros h H. rewrite H, <- inject_Z_plus in EI. apply (proj1 (inject_Z_injective _ _)) in EI. exact EI. }
  destruct D as [->|[->|[->|[->|[->|[->| ->]]]]]];
    [specialize (Y 0)|specialize (Y 2)|specialize (Y 4)|specialize (Y 5)|specialize (Y 7)|specialize (Y 9)|specialize (Y 11)];
    specialize (Y ltac:(vm_compute; reflexivity)); repeat match goal with |- context [?x <? ?y] => destruct (Z.ltb_spec x y) end; lia.
Qed.
