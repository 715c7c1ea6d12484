From Coq Require Import Decimal DecimalString DecimalN String Ascii List ZArith QArith Qpower Qabs Bool Lia Lqa.
From Coq Require Import ZifyBool ZifyNat.
From Verif Require Import Base Duration_Model Duration_Spec.
Import ListNotations.
Open Scope Z_scope.

(** * Powers of two *)

Lemma two_nz : ~ (2#1 == 0)%Q.
Proof. intros H. discriminate H. Qed.

Lemma p2_plus a b : (p2 (a + b) == p2 a * p2 b)%Q.
Proof. unfold p2. apply Qpower_plus, two_nz. Qed.

Lemma p2_pos e : (0 < p2 e)%Q.
Proof. unfold p2. apply Qpower_0_lt. lra. Qed.

Lemma p2_0 : (p2 0 == 1)%Q.
Proof. reflexivity. Qed.

Lemma p2_lt a b : a < b <-> (p2 a < p2 b)%Q.
Proof.
  unfold p2. split.
  - intros H. apply Qpower_lt_compat_l; [exact H|lra].
  - intros H. eapply Qpower_lt_compat_l_inv; [exact H|lra].
Qed.

Lemma p2_le a b : a <= b <-> (p2 a <= p2 b)%Q.
Proof.
  unfold p2. split.
  - intros H. apply Qpower_le_compat_l; [exact H|lra].
  - intros H. eapply Qpower_le_compat_l_inv; [exact H|lra].
Qed.

Lemma p2_le_up a b : a <= b -> (p2 a <= p2 b)%Q.
Proof. apply p2_le. Qed.
Lemma p2_lt_up a b : a < b -> (p2 a < p2 b)%Q.
Proof. apply p2_lt. Qed.
Lemma p2_le_down a b : (p2 a <= p2 b)%Q -> a <= b.
Proof. apply p2_le. Qed.
Lemma p2_lt_down a b : (p2 a < p2 b)%Q -> a < b.
Proof. apply p2_lt. Qed.

Lemma p2_inv a : (p2 a * p2 (- a) == 1)%Q.
Proof. rewrite <- p2_plus. replace (a + - a) with 0 by lia. apply p2_0. Qed.

Lemma p2_int z : 0 <= z -> (p2 z == inject_Z (2 ^ z))%Q.
Proof. intros H. unfold p2. symmetry. apply Zpower_Qpower. exact H. Qed.

Lemma p2_succ e : (p2 (e + 1) == 2 * p2 e)%Q.
Proof. rewrite p2_plus. change (p2 1) with (2#1). lra. Qed.

Lemma p2_pred e : (p2 e == 2 * p2 (e - 1))%Q.
Proof. rewrite <- p2_succ. replace (e - 1 + 1) with e by lia. reflexivity. Qed.

(** * frexp *)

Lemma exponent_of_spec v : (0 < v)%Q ->
  (p2 (exponent_of v - 1) <= v)%Q /\ (v < p2 (exponent_of v))%Q.
Proof.
  intros Hv. unfold exponent_of.
  set (k := Z.log2 (Qnum v) - Z.log2 (Zpos (Qden v))).
  assert (Hn : 0 < Qnum v) by (unfold Qlt in Hv; simpl in Hv; lia).
  pose proof (Z.log2_spec (Qnum v) Hn) as [Na Nb].
  pose proof (Z.log2_spec (Zpos (Qden v)) ltac:(lia)) as [Da Db].
  set (a := Z.log2 (Qnum v)) in *. set (b := Z.log2 (Zpos (Qden v))) in *.
  assert (A0 : 0 <= a) by apply Z.log2_nonneg.
  assert (B0 : 0 <= b) by apply Z.log2_nonneg.
  assert (EV : (v * inject_Z (Zpos (Qden v)) == inject_Z (Qnum v))%Q).
  { destruct v as [n d]. unfold Qeq, inject_Z. simpl. lia. }
  assert (QN1 : (p2 a <= inject_Z (Qnum v))%Q).
  { rewrite p2_int by exact A0. rewrite <- Zle_Qle. exact Na. }
  assert (QN2 : (inject_Z (Qnum v) < p2 (a+1))%Q).
  { rewrite p2_int by lia. rewrite <- Zlt_Qlt. replace (a+1) with (Z.succ a) by lia. exact Nb. }
  assert (QD1 : (p2 b <= inject_Z (Zpos (Qden v)))%Q).
  { rewrite p2_int by exact B0. rewrite <- Zle_Qle. exact Da. }
  assert (QD2 : (inject_Z (Zpos (Qden v)) < p2 (b+1))%Q).
  { rewrite p2_int by lia. rewrite <- Zlt_Qlt. replace (b+1) with (Z.succ b) by lia. exact Db. }
  set (N := inject_Z (Qnum v)) in *. set (D := inject_Z (Zpos (Qden v))) in *.
  assert (PB := p2_pos b). assert (PB1 := p2_pos (b+1)). assert (PK := p2_pos k).
  assert (Ek : (p2 a == p2 k * p2 b)%Q).
  { rewrite <- p2_plus. unfold k. replace (a - b + b) with a by lia. reflexivity. }
  rewrite p2_succ in QN2, QD2.
  assert (HU : (v < p2 (k+1))%Q).
  { rewrite p2_succ. apply Qnot_le_lt. intros C.
    assert ((2 * p2 k * D <= v * D)%Q) by (apply Qmult_le_compat_r; [exact C|lra]).
    assert ((p2 k * p2 b <= p2 k * D)%Q) by (rewrite !(Qmult_comm (p2 k)); apply Qmult_le_compat_r; lra).
    lra. }
  assert (HL : (p2 (k-1) < v)%Q).
  { apply Qnot_le_lt. intros C.
    assert (P1 := p2_pos (k-1)). assert (E1 := p2_pred k).
    assert ((v * D <= p2 (k-1) * D)%Q) by (apply Qmult_le_compat_r; [exact C|lra]).
    assert ((p2 (k-1) * D < p2 (k-1) * (2 * p2 b))%Q).
    { rewrite !(Qmult_comm (p2 (k-1))). apply Qmult_lt_compat_r; lra. }
    assert ((p2 (k-1) * (2 * p2 b) == p2 k * p2 b)%Q) by (rewrite E1; ring).
    lra. }
  destruct (Qle_bool (p2 k) v) eqn:E.
  - apply Qle_bool_iff in E. replace (k + 1 - 1) with k by lia. split; assumption.
  - split; [now apply Qlt_le_weak|]. apply Qnot_le_lt. intros C.
    apply Qle_bool_iff in C. congruence.
Qed.

Lemma exponent_unique v e : (p2 (e - 1) <= v)%Q -> (v < p2 e)%Q -> exponent_of v = e.
Proof.
  intros H1 H2.
  assert (0 < v)%Q by (pose proof (p2_pos (e-1)); lra).
  destruct (exponent_of_spec v H) as [H3 H4].
  set (f := exponent_of v) in *.
  assert (e - 1 < f) by (apply p2_lt_down; lra).
  assert (f - 1 < e) by (apply p2_lt_down; lra). lia.
Qed.

Lemma Qeq_bool_false v : ~ (v == 0)%Q -> Qeq_bool v 0 = false.
Proof.
  intros H. destruct (Qeq_bool v 0) eqn:E; [|reflexivity].
  apply Qeq_bool_iff in E. contradiction.
Qed.

Lemma frexpQ_pos v : (0 < v)%Q -> frexpQ v = (v * p2 (- exponent_of v), exponent_of v)%Q.
Proof.
  intros H. unfold frexpQ. rewrite Qeq_bool_false by lra.
  replace (Qle_bool 0 v) with true; [reflexivity|]. symmetry. apply Qle_bool_iff. lra.
Qed.

Lemma frexpQ_spec v : (0 < v)%Q ->
  (v == fst (frexpQ v) * p2 (snd (frexpQ v)))%Q /\
  (1#2 <= fst (frexpQ v))%Q /\ (fst (frexpQ v) < 1)%Q.
Proof.
  intros H. rewrite frexpQ_pos by exact H. simpl.
  destruct (exponent_of_spec v H) as [H1 H2]. set (e := exponent_of v) in *.
  assert (PI := p2_inv e). assert (PM := p2_pos (-e)). assert (PP := p2_pred e).
  split; [|split].
  - transitivity (v * (p2 e * p2 (-e)))%Q; [rewrite PI; ring|ring].
  - assert ((p2 (e-1) * p2 (-e) <= v * p2 (-e))%Q) by (apply Qmult_le_compat_r; lra).
    assert ((p2 (e-1) * p2 (-e) == (1#2))%Q).
    { setoid_replace (p2 (e-1)) with ((1#2) * p2 e)%Q by lra. rewrite <- Qmult_assoc, PI. reflexivity. }
    lra.
  - assert ((v * p2 (-e) < p2 e * p2 (-e))%Q) by (apply Qmult_lt_compat_r; lra). lra.
Qed.

Lemma frexpQ_unique v m e : (v == m * p2 e)%Q -> (1#2 <= m)%Q -> (m < 1)%Q ->
  (fst (frexpQ v) == m)%Q /\ snd (frexpQ v) = e.
Proof.
  intros E H1 H2. assert (PE := p2_pos e).
  assert (P1 : (p2 (e-1) <= v)%Q).
  { rewrite E. assert ((1#2) * p2 e <= m * p2 e)%Q by (apply Qmult_le_compat_r; lra).
    pose proof (p2_pred e). lra. }
  assert (P2 : (v < p2 e)%Q).
  { rewrite E. assert (m * p2 e < 1 * p2 e)%Q by (apply Qmult_lt_compat_r; lra). lra. }
  assert (0 < v)%Q by (pose proof (p2_pos (e-1)); lra).
  rewrite frexpQ_pos by assumption. rewrite (exponent_unique v e P1 P2). simpl.
  split; [|reflexivity]. rewrite E, <- Qmult_assoc, p2_inv. ring.
Qed.

Global Instance frexpQ_snd_proper : Proper (Qeq ==> eq) (fun v => snd (frexpQ v)).
Proof.
  intros v w E. unfold frexpQ.
  rewrite (Qeqb_comp v w E 0%Q 0%Q (Qeq_refl 0)).
  destruct (Qeq_bool w 0) eqn:Z0; [reflexivity|].
  assert (NZ : ~ (w == 0)%Q) by (intros C; apply Qeq_bool_iff in C; congruence).
  rewrite (Qleb_comp 0%Q 0%Q (Qeq_refl 0) v w E).
  assert (X : forall a b, (a == b)%Q -> (0 < a)%Q -> exponent_of a = exponent_of b).
  { intros a b Hab Ha. destruct (exponent_of_spec b) as [H1 H2]; [lra|].
    apply exponent_unique; lra. }
  destruct (Qle_bool 0 w) eqn:L; simpl.
  - apply Qle_bool_iff in L. apply X; [exact E|lra].
  - assert (~ (0 <= w)%Q) by (intros C; apply Qle_bool_iff in C; congruence).
    apply X; lra.
Qed.

Global Instance frexpQ_fst_proper : Proper (Qeq ==> Qeq) (fun v => fst (frexpQ v)).
Proof.
  intros v w E. pose proof (frexpQ_snd_proper v w E) as S. simpl in S.
  revert S. unfold frexpQ.
  rewrite (Qeqb_comp v w E 0%Q 0%Q (Qeq_refl 0)).
  destruct (Qeq_bool w 0); [reflexivity|].
  rewrite (Qleb_comp 0%Q 0%Q (Qeq_refl 0) v w E).
  destruct (Qle_bool 0 w); simpl; intros ->; rewrite E; reflexivity.
Qed.

(** * Rounding to a float *)

Lemma round_half_even_int q n : (q == inject_Z n)%Q -> round_half_even q = n.
Proof.
  intros E. unfold round_half_even. destruct q as [a d]. unfold Qeq, inject_Z in E. simpl in *.
  assert (a = n * Zpos d) by lia. subst a.
  rewrite Z.div_mul, Z_mod_mult by lia. reflexivity.
Qed.

Lemma pow53 : 2 ^ 53 = 9007199254740992. Proof. reflexivity. Qed.

Lemma to_float_exact v : (0 < v)%Q -> float53 v -> (to_float v == v)%Q.
Proof.
  intros Hv (n & k & Hn & E). fold (p2 k) in E.
  assert (PK := p2_pos k).
  assert (Hn0 : 0 < n).
  { destruct (Z.lt_trichotomy n 0) as [L|[L|L]]; [| |exact L].
    - exfalso. assert (inject_Z n < 0)%Q by (change 0%Q with (inject_Z 0); rewrite <- Zlt_Qlt; exact L).
      assert (inject_Z n * p2 k < 0 * p2 k)%Q by (apply Qmult_lt_compat_r; assumption). lra.
    - subst n. exfalso. rewrite E in Hv. change (inject_Z 0) with 0%Q in Hv. lra. }
  rewrite Z.abs_eq in Hn by lia.
  pose proof (Z.log2_spec n Hn0) as [La Lb].
  set (a := Z.log2 n) in *.
  assert (A0 : 0 <= a) by apply Z.log2_nonneg.
  assert (A1 : a < 53) by (apply (Z.pow_lt_mono_r_iff 2); lia).
  assert (EX : snd (frexpQ v) = a + 1 + k).
  { rewrite frexpQ_pos by exact Hv. simpl. apply exponent_unique; rewrite E.
    - replace (a + 1 + k - 1) with (a + k) by lia. rewrite p2_plus, (p2_int a) by exact A0.
      apply Qmult_le_compat_r; [|lra]. rewrite <- Zle_Qle. exact La.
    - rewrite p2_plus, (p2_int (a+1)) by lia.
      apply Qmult_lt_compat_r; [exact PK|]. rewrite <- Zlt_Qlt. exact Lb. }
  unfold to_float. rewrite Qeq_bool_false by lra. rewrite EX.
  rewrite (round_half_even_int _ (n * 2 ^ (52 - a))).
  - rewrite inject_Z_mult. rewrite <- (p2_int (52 - a)) by lia. rewrite E.
    rewrite <- Qmult_assoc, <- p2_plus.
    replace (52 - a + (a + 1 + k - 53)) with k by lia. reflexivity.
  - rewrite inject_Z_mult. rewrite <- (p2_int (52 - a)) by lia. rewrite E.
    rewrite <- Qmult_assoc, <- p2_plus.
    replace (k + (53 - (a + 1 + k))) with (52 - a) by lia. reflexivity.
Qed.

Lemma frexp_exact v : (0 < v)%Q -> float53 v ->
  (fst (frexp v) == fst (frexpQ v))%Q /\ snd (frexp v) = snd (frexpQ v).
Proof.
  intros H F. unfold frexp. pose proof (to_float_exact v H F) as E. split.
  - apply (frexpQ_fst_proper _ _ E).
  - apply (frexpQ_snd_proper _ _ E).
Qed.

(** * Expressible durations *)

Lemma dotted_pos l d : 0 <= d -> (0 < dotted l d)%Q.
Proof.
  intros H. unfold dotted. fold (p2 (-l)) (p2 (-d)).
  assert (p2 (-d) <= p2 0)%Q by (apply p2_le_up; lia). rewrite p2_0 in H0.
  assert (PL := p2_pos (-l)).
  setoid_replace 0%Q with (p2 (-l) * 0)%Q by ring. rewrite !(Qmult_comm (p2 (-l))).
  apply Qmult_lt_compat_r; lra.
Qed.

Lemma dotted_mant l d : (dotted l d == (1 - p2 (- d - 1)) * p2 (1 - l))%Q.
Proof.
  unfold dotted. fold (p2 (-l)) (p2 (-d)). rewrite (p2_pred (-d)).
  replace (1 - l) with (-l + 1) by lia. rewrite p2_succ. ring.
Qed.

Lemma dotted_frexp l d v : 0 <= d -> (v == dotted l d)%Q ->
  (fst (frexpQ v) == 1 - p2 (- d - 1))%Q /\ snd (frexpQ v) = 1 - l.
Proof.
  intros H E. apply frexpQ_unique.
  - rewrite E. apply dotted_mant.
  - assert (p2 (-d-1) <= p2 (-1))%Q by (apply p2_le_up; lia). change (p2 (-1)) with (1#2) in H0. lra.
  - pose proof (p2_pos (-d-1)). lra.
Qed.

Lemma frexpQ_p2 z : (fst (frexpQ (p2 z)) == (1#2))%Q /\ snd (frexpQ (p2 z)) = z + 1.
Proof.
  apply frexpQ_unique; [|lra|lra]. rewrite p2_succ. ring.
Qed.

(** The dot count computed from a mantissa. *)
Definition dots_of (mant : Q) : Z :=
  let (m, e) := frexpQ (1 - mant) in - e - (if Qle_bool m (1 # 2) then 0 else 1).

Lemma log_dotcount_eq v :
  log_dotcount v = (1 - snd (frexp v), dots_of (fst (frexp v))).
Proof.
  unfold log_dotcount, dots_of. destruct (frexp v) as [m e]. simpl.
  destruct (frexpQ (1 - m)). reflexivity.
Qed.

(** [dots_of m] is the number of dots d with 1-2^-(d+1) <= m < 1-2^-(d+2). *)
Lemma dots_of_spec m : (1#2 <= m)%Q -> (m < 1)%Q ->
  0 <= dots_of m /\ (1 - p2 (- dots_of m - 1) <= m)%Q /\ (m < 1 - p2 (- dots_of m - 2))%Q.
Proof.
  intros H1 H2. unfold dots_of.
  destruct (frexpQ_spec (1 - m)) as (E & B1 & B2); [lra|].
  destruct (frexpQ (1 - m)) as [x e]. simpl in *.
  assert (PE := p2_pos e). assert (PP := p2_pred e). assert (PP2 := p2_pred (e-1)).
  assert (L1 : (p2 (e-1) <= 1 - m)%Q).
  { rewrite E. assert ((1#2) * p2 e <= x * p2 e)%Q by (apply Qmult_le_compat_r; lra). lra. }
  assert (L2 : (1 - m < p2 e)%Q).
  { rewrite E. assert (x * p2 e < 1 * p2 e)%Q by (apply Qmult_lt_compat_r; lra). lra. }
  assert (E0 : e <= 0).
  { assert (p2 (e-1) <= p2 (-1))%Q by (change (p2 (-1)) with (1#2); lra). apply p2_le_down in H. lia. }
  destruct (Qle_bool x (1#2)) eqn:B.
  - apply Qle_bool_iff in B. assert (EX : (x == (1#2))%Q) by lra.
    assert (E2 : (1 - m == p2 (e-1))%Q) by (rewrite E, EX; lra).
    replace (- (- e - 0) - 1) with (e - 1) by lia.
    replace (- (- e - 0) - 2) with (e - 1 - 1) by lia.
    split; [lia|]. split; [lra|]. pose proof (p2_pos (e-1-1)). lra.
  - assert (NB : (1#2 < x)%Q) by (apply Qnot_le_lt; intros C; apply Qle_bool_iff in C; congruence).
    assert (L3 : (p2 (e-1) < 1 - m)%Q).
    { rewrite E. assert ((1#2) * p2 e < x * p2 e)%Q by (apply Qmult_lt_compat_r; lra). lra. }
    replace (- (- e - 1) - 1) with e by lia.
    replace (- (- e - 1) - 2) with (e - 1) by lia.
    split; [|split; lra].
    assert (e < 1 /\ e <> 0); [|lia]. split; [lia|]. intros ->.
    (* e = 0 would need 1 - m > 1/2 *)
    change (p2 (0-1)) with (1#2) in L3. lra.
Qed.

Lemma dots_of_unique m d : 0 <= d -> (1 - p2 (- d - 1) <= m)%Q -> (m < 1 - p2 (- d - 2))%Q ->
  dots_of m = d.
Proof.
  intros H H1 H2.
  assert (p2 (-d-1) <= p2 (-1))%Q by (apply p2_le_up; lia). change (p2 (-1)) with (1#2) in H0.
  pose proof (p2_pos (-d-2)).
  destruct (dots_of_spec m) as (D & D1 & D2); [lra|lra|].
  set (c := dots_of m) in *.
  assert (- c - 2 < - d - 1) by (apply p2_lt_down; lra).
  assert (- d - 2 < - c - 1) by (apply p2_lt_down; lra). lia.
Qed.

Lemma duration_value l d : 0 <= d -> 0 <= d + l + 3 ->
  exists v, duration l d = Ok v /\ (v == dotted l d)%Q.
Proof.
  intros Hd Hl. unfold duration.
  replace ((d <? 0) || (d + l + 3 <? 0)) with false by lia.
  eexists. split; [reflexivity|].
  rewrite !Z.shiftl_mul_pow2 by lia. rewrite Z.mul_1_l.
  rewrite <- (p2_int (d + l + 3)) by lia.
  rewrite inject_Z_mult. change (inject_Z (2 ^ 3)) with (p2 3).
  unfold Z.sub at 1. rewrite inject_Z_plus, inject_Z_mult.
  rewrite <- (p2_int d) by exact Hd. change (inject_Z 2) with (2#1). change (inject_Z (-(1))) with (-1#1).
  unfold dotted. fold (p2 (-l)) (p2 (-d)).
  rewrite !p2_plus.
  assert (P1 := p2_pos d). assert (P2 := p2_pos l). assert (P3 := p2_pos 3).
  assert (I1 := p2_inv d). assert (I2 := p2_inv l).
  assert (F1 : (p2 (-d) == / p2 d)%Q) by (field_simplify_eq; [lra|lra]).
  assert (F2 : (p2 (-l) == / p2 l)%Q) by (field_simplify_eq; [lra|lra]).
  rewrite F1, F2. field. repeat split; lra.
Qed.

Lemma duration_error l d : (d < 0 \/ d + l + 3 < 0) <-> duration l d = Err ValueError.
Proof.
  unfold duration. destruct ((d <? 0) || (d + l + 3 <? 0)) eqn:E; split; intros H; try lia; [reflexivity|discriminate].
Qed.

Lemma dotted_float53 l d : 0 <= d <= 52 -> float53 (dotted l d).
Proof.
  intros H. exists (2 ^ (d + 1) - 1), (- l - d). split.
  - assert (2 ^ (d+1) <= 2 ^ 53) by (apply Z.pow_le_mono_r; lia).
    assert (0 < 2 ^ (d+1)) by (apply Z.pow_pos_nonneg; lia). lia.
  - fold (p2 (- l - d)). unfold dotted. fold (p2 (-l)) (p2 (-d)).
    unfold Z.sub at 1. rewrite inject_Z_plus, <- p2_int by lia.
    change (inject_Z (-(1))) with (-1#1). replace (-l - d) with (-l + -d) by lia.
    rewrite p2_succ, p2_plus.
    assert (I := p2_inv d).
    setoid_replace ((2 * p2 d + (-1#1)) * (p2 (-l) * p2 (-d)))%Q
      with (p2 (-l) * (2 * (p2 d * p2 (-d)) - p2 (-d)))%Q by ring.
    rewrite I. ring.
Qed.

Lemma float53_proper v w : (v == w)%Q -> float53 v -> float53 w.
Proof. intros E (n & k & H & F). exists n, k. split; [exact H|]. now rewrite <- E. Qed.

Lemma log_dotcount_dotted l d v : 0 <= d <= 52 -> (v == dotted l d)%Q ->
  log_dotcount v = (l, d).
Proof.
  intros H E. rewrite log_dotcount_eq.
  assert (P : (0 < v)%Q) by (rewrite E; apply dotted_pos; lia).
  assert (F : float53 v) by (eapply float53_proper; [symmetry; exact E|apply dotted_float53; exact H]).
  destruct (frexp_exact v P F) as [F1 F2].
  destruct (dotted_frexp l d v ltac:(lia) E) as [G1 G2].
  rewrite F2, G2. f_equal; [lia|].
  apply dots_of_unique; [lia| |]; rewrite F1, G1.
  - lra.
  - assert (p2 (-d-2) < p2 (-d-1))%Q by (apply p2_lt_up; lia). lra.
Qed.

Lemma log_dotcount_duration l d : 0 <= d <= 52 -> 0 <= d + l + 3 ->
  exists v, duration l d = Ok v /\ (v == dotted l d)%Q /\ log_dotcount v = (l, d).
Proof.
  intros H1 H2. destruct (duration_value l d ltac:(lia) H2) as (v & E & V).
  exists v. split; [exact E|]. split; [exact V|]. now apply log_dotcount_dotted.
Qed.

(** * Truncation *)

Lemma log_dotcount_trunc v : (0 < v)%Q -> float53 v ->
  let (l, d) := log_dotcount v in
  0 <= d /\ (dotted l d <= v)%Q /\
  (forall l' d', 0 <= d' -> (dotted l' d' <= v)%Q -> (dotted l' d' <= dotted l d)%Q).
Proof.
  intros P F. rewrite log_dotcount_eq.
  destruct (frexp_exact v P F) as [F1 F2]. rewrite F2.
  destruct (frexpQ_spec v P) as (E & B1 & B2).
  destruct (dots_of_spec (fst (frexp v))) as (D0 & D1 & D2); [lra|lra|].
  set (d := dots_of _) in *. set (e := snd (frexpQ v)) in *. set (m := fst (frexpQ v)) in *.
  assert (PE := p2_pos e).
  split; [exact D0|]. split.
  - rewrite dotted_mant. replace (1 - (1 - e)) with e by lia. rewrite E.
    apply Qmult_le_compat_r; lra.
  - intros l' d' Hd' Hle. rewrite !dotted_mant in *.
    replace (1 - (1 - e)) with e by lia.
    set (e' := 1 - l') in *.
    assert (PE' := p2_pos e').
    assert (Q1 : (p2 (-d'-1) <= (1#2))%Q).
    { change (1#2) with (p2 (-1)). apply p2_le_up. lia. }
    assert (Q2 := p2_pos (-d'-1)).
    destruct (Z.lt_trichotomy e' e) as [L|[L|L]].
    + (* smaller base note: anything is below 1/2 * 2^e *)
      assert (p2 e' <= p2 (e-1))%Q by (apply p2_le_up; lia).
      assert ((1 - p2 (-d'-1)) * p2 e' <= 1 * p2 e')%Q by (apply Qmult_le_compat_r; lra).
      assert ((1#2) * p2 e <= (1 - p2 (-d-1)) * p2 e)%Q.
      { apply Qmult_le_compat_r; [|lra].
        assert (p2 (-d-1) <= p2 (-1))%Q by (apply p2_le_up; lia).
        change (p2 (-1)) with (1#2) in *. lra. }
      pose proof (p2_pred e). lra.
    + rewrite L in *. apply Qmult_le_compat_r; [|lra].
      assert (M : (1 - p2 (-d'-1) <= m)%Q).
      { apply Qnot_lt_le. intros C.
        assert (m * p2 e < (1 - p2 (-d'-1)) * p2 e)%Q by (apply Qmult_lt_compat_r; lra). lra. }
      assert (- d - 2 < - d' - 1) by (apply p2_lt_down; lra).
      assert (p2 (-d-1) <= p2 (-d'-1))%Q by (apply p2_le_up; lia). lra.
    + exfalso.
      assert (p2 e <= p2 (e'-1))%Q by (apply p2_le_up; lia).
      assert ((1#2) * p2 e' <= (1 - p2 (-d'-1)) * p2 e')%Q by (apply Qmult_le_compat_r; lra).
      pose proof (p2_pred e').
      assert (m * p2 e < 1 * p2 e)%Q by (apply Qmult_lt_compat_r; lra).
      lra.
Qed.

(** * is_writable *)

Lemma is_writable_exact v : (0 < v)%Q -> float53 v ->
  (is_writable v = true <-> ((1 # 1024) <= v)%Q /\ (v < 16)%Q /\ expressible v).
Proof.
  intros P F. destruct (frexp_exact v P F) as [F1 F2].
  unfold is_writable. destruct (frexp v) as [mm ee] eqn:EF. simpl in F1, F2.
  destruct (frexpQ_spec v P) as (E & B1 & B2).
  set (e := snd (frexpQ v)) in *. set (m := fst (frexpQ v)) in *. subst ee.
  assert (PE := p2_pos e).
  assert (R1 : (-10 <? e) = true <-> (1 # 1024 <= v)%Q).
  { change (1 # 1024) with (p2 (-10)). split; intros H.
    - assert (p2 (-10) <= p2 (e - 1))%Q by (apply p2_le_up; lia).
      assert ((1#2) * p2 e <= m * p2 e)%Q by (apply Qmult_le_compat_r; lra).
      pose proof (p2_pred e). lra.
    - assert (m * p2 e < 1 * p2 e)%Q by (apply Qmult_lt_compat_r; lra).
      assert (-10 < e) by (apply p2_lt_down; lra). lia. }
  assert (R2 : (e <? 5) = true <-> (v < 16)%Q).
  { change (16)%Q with (p2 4). split; intros H.
    - assert (p2 e <= p2 4)%Q by (apply p2_le_up; lia).
      assert (m * p2 e < 1 * p2 e)%Q by (apply Qmult_lt_compat_r; lra). lra.
    - assert ((1#2) * p2 e <= m * p2 e)%Q by (apply Qmult_le_compat_r; lra).
      pose proof (p2_pred e).
      assert (e - 1 < 4) by (apply p2_lt_down; lra). lia. }
  assert (R3 : Qeq_bool (fst (frexpQ (1 - mm))) (1 # 2) = true <-> expressible v).
  { rewrite Qeq_bool_iff.
    assert (EM : (1 - mm == 1 - m)%Q) by (rewrite F1; reflexivity).
    pose proof (frexpQ_fst_proper _ _ EM) as EM2. simpl in EM2. rewrite EM2. split.
    - intros H. destruct (frexpQ_spec (1 - m)) as (X & X1 & X2); [lra|].
      rewrite H in X. set (f := snd (frexpQ (1 - m))) in *.
      exists (1 - e), (- f). assert (XP := p2_pred f). split.
      + assert (f - 1 <= -1); [|lia]. apply p2_le_down. change (p2 (-1)) with (1#2). lra.
      + rewrite dotted_mant, E. replace (1 - (1 - e)) with e by lia.
        replace (- - f - 1) with (f - 1) by lia. setoid_replace m with (1 - p2 (f-1))%Q by lra. reflexivity.
    - intros (l & d & Hd & V). destruct (dotted_frexp l d v Hd V) as [G1 G2].
      fold m in G1. assert (EP : (1 - m == p2 (-d-1))%Q) by (rewrite G1; ring).
      pose proof (frexpQ_fst_proper _ _ EP) as EP2. simpl in EP2. rewrite EP2. apply frexpQ_p2. }
  rewrite !andb_true_iff, R1, R2, R3. tauto.
Qed.

Lemma is_writable_negative v : (v < 0)%Q -> float53 v -> is_writable v = false.
Proof.
  intros P (n & k & Hn & E). fold (p2 k) in E.
  (* by symmetry the mantissa is in (-1, -1/2] *)
  assert (FE : (to_float v == v)%Q).
  { unfold to_float. rewrite Qeq_bool_false by lra.
    assert (SE : snd (frexpQ v) = snd (frexpQ (- v))).
    { unfold frexpQ. rewrite !Qeq_bool_false by lra.
      replace (Qle_bool 0 v) with false.
      2:{ symmetry. destruct (Qle_bool 0 v) eqn:B; [|reflexivity]. apply Qle_bool_iff in B. lra. }
      replace (Qle_bool 0 (-v)) with true by (symmetry; apply Qle_bool_iff; lra). reflexivity. }
    assert (FV : float53 (- v)).
    { exists (- n), k. split; [lia|]. rewrite inject_Z_opp, E. fold (p2 k). ring. }
    assert (PK := p2_pos k).
    rewrite SE.
    destruct FV as (n' & k' & Hn' & E'). fold (p2 k') in E'.
    assert (PV : (0 < - v)%Q) by lra.
    assert (PK' := p2_pos k').
    assert (Hn0 : 0 < n').
    { destruct (Z.lt_trichotomy n' 0) as [L|[L|L]]; [| |exact L].
      - exfalso. assert (inject_Z n' < 0)%Q by (change 0%Q with (inject_Z 0); rewrite <- Zlt_Qlt; exact L).
        assert (inject_Z n' * p2 k' < 0 * p2 k')%Q by (apply Qmult_lt_compat_r; assumption). lra.
      - subst n'. exfalso. rewrite E' in PV. change (inject_Z 0) with 0%Q in PV. lra. }
    rewrite Z.abs_eq in Hn' by lia.
    pose proof (Z.log2_spec n' Hn0) as [La Lb].
    set (a := Z.log2 n') in *.
    assert (A0 : 0 <= a) by apply Z.log2_nonneg.
    assert (A1 : a < 53) by (apply (Z.pow_lt_mono_r_iff 2); lia).
    assert (EX : snd (frexpQ (-v)) = a + 1 + k').
    { rewrite frexpQ_pos by exact PV. simpl. apply exponent_unique; rewrite E'.
      - replace (a + 1 + k' - 1) with (a + k') by lia. rewrite p2_plus, (p2_int a) by exact A0.
        apply Qmult_le_compat_r; [|lra]. rewrite <- Zle_Qle. exact La.
      - rewrite p2_plus, (p2_int (a+1)) by lia.
        apply Qmult_lt_compat_r; [exact PK'|]. rewrite <- Zlt_Qlt. exact Lb. }
    rewrite EX.
    assert (EV : (v == inject_Z (-n') * p2 k')%Q) by (rewrite inject_Z_opp; lra).
    rewrite (round_half_even_int _ (- n' * 2 ^ (52 - a))).
    - rewrite inject_Z_mult. rewrite <- (p2_int (52 - a)) by lia. rewrite EV.
      rewrite <- Qmult_assoc, <- p2_plus.
      replace (52 - a + (a + 1 + k' - 53)) with k' by lia. reflexivity.
    - rewrite inject_Z_mult. rewrite <- (p2_int (52 - a)) by lia. rewrite EV.
      rewrite <- Qmult_assoc, <- p2_plus.
      replace (k' + (53 - (a + 1 + k'))) with (52 - a) by lia. reflexivity. }
  unfold is_writable, frexp.
  assert (NEG : exists m e, frexpQ (to_float v) = (m, e) /\ (-1 < m)%Q /\ (m <= - (1#2))%Q).
  { set (w := to_float v) in *. assert (W : (w < 0)%Q) by lra.
    unfold frexpQ. rewrite Qeq_bool_false by lra.
    replace (Qle_bool 0 w) with false.
    2:{ symmetry. destruct (Qle_bool 0 w) eqn:B; [|reflexivity]. apply Qle_bool_iff in B. lra. }
    eexists _, _. split; [reflexivity|].
    destruct (frexpQ_spec (- w)) as (_ & X1 & X2); [lra|].
    rewrite frexpQ_pos in X1, X2 by lra. simpl in X1, X2. split; lra. }
  destruct NEG as (m & e & -> & M1 & M2).
  replace (Qeq_bool (fst (frexpQ (1 - m))) (1#2)) with false; [now rewrite andb_false_r|].
  symmetry. destruct (Qeq_bool _ _) eqn:B; [|reflexivity]. exfalso.
  apply Qeq_bool_iff in B.
  destruct (frexpQ_unique (1 - m) ((1 - m) * (1#2)) 1) as [G1 _].
  - change (p2 1) with (2#1). ring.
  - lra.
  - lra.
  - lra.
Qed.
