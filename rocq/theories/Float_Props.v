(** Durations of any size: the property C109. *)
From Coq Require Import String Ascii List ZArith QArith Qpower Qabs Bool Lia Lqa.
From Coq Require Import ZifyBool ZifyNat.
From Verif Require Import Base Duration_Model Duration_Spec Duration_Proofs Duration_Text Float_Model Float_Spec.
Import ListNotations.
Open Scope Z_scope.

Lemma exponent_bounds : forall v, (0 < v)%Q -> (p2 (snd (frexpQ v) - 1) <= v)%Q /\ (v < p2 (snd (frexpQ v)))%Q.
Proof. intros v H. rewrite frexpQ_pos by exact H. cbn [snd]. now apply exponent_of_spec. Qed.

Definition unit_of (v : Q) : Z := Z.max (snd (frexpQ v) - 53) (-1074).
Definition rounded (v : Q) : Q := (inject_Z (round_half_even (v * p2 (- unit_of v))) * p2 (unit_of v))%Q.

Lemma float64_pos : forall v, (0 < v)%Q -> float64 v = if Qle_bool (p2 1024) (Qabs (rounded v)) then Err OverflowError else Ok (rounded v).
Proof. intros v H. unfold float64. rewrite Qeq_bool_false by lra. reflexivity. Qed.

Lemma rounded_nonneg : forall v, (0 < v)%Q -> (0 <= rounded v)%Q.
Proof.
  intros v H. unfold rounded. assert (P := p2_pos (unit_of v)). assert (P' := p2_pos (- unit_of v)). apply Qmult_le_0_compat; [|lra].
  change 0%Q with (inject_Z 0). rewrite <- Zle_Qle. apply round_ge. change (inject_Z 0) with 0%Q. apply Qmult_le_0_compat; lra.
Qed.

(** Rounding to the grid of multiples of 2^unit gives the nearest of them. *)
Lemma round_nearest : forall q m, (Qabs (inject_Z (round_half_even q) - q) <= Qabs (inject_Z m - q))%Q.
Proof.
  intros q m. pose proof (round_half_error q) as R. destruct (Z.eq_dec (round_half_even q) m) as [->|N]; [lra|].
  set (n := round_half_even q) in *. apply Qabs_Qle_condition in R. destruct R as [R1 R2].
  assert (X : (inject_Z n + 1 <= inject_Z m \/ inject_Z m + 1 <= inject_Z n)%Q).
  { destruct (Z_lt_le_dec n m) as [L|L]; [left|right]; change 1%Q with (inject_Z 1); rewrite <- inject_Z_plus, <- Zle_Qle; lia. }
  apply Qle_trans with (1#2)%Q; [apply Qabs_Qle_condition; lra|].
  destruct X as [X|X].
  - rewrite Qabs_pos; lra.
  - rewrite Qabs_neg; lra.
Qed.
Lemma grid_nearest : forall v m, (Qabs (rounded v - v) <= Qabs (inject_Z m * p2 (unit_of v) - v))%Q.
Proof.
  intros v m. unfold rounded. set (u := unit_of v). assert (P := p2_pos u). assert (I := p2_inv u).
  set (q := (v * p2 (- u))%Q). assert (V : (v == q * p2 u)%Q) by (unfold q; rewrite <- Qmult_assoc, (Qmult_comm (p2 (- u))), I; ring).
  assert (A : forall z, (Qabs (inject_Z z * p2 u - v) == Qabs (inject_Z z - q) * p2 u)%Q).
  { intros z. rewrite V. setoid_replace (inject_Z z * p2 u - q * p2 u)%Q with ((inject_Z z - q) * p2 u)%Q by ring. rewrite Qabs_Qmult.
    rewrite (Qabs_pos (p2 u)) by lra. reflexivity. }
  rewrite !A. apply Qmult_le_compat_r; [apply round_nearest|lra].
Qed.

Lemma scaled_upper : forall v, (0 < v)%Q -> (v * p2 (- unit_of v) < p2 53)%Q.
Proof.
  intros v H. destruct (exponent_bounds v H) as [_ B]. set (e := snd (frexpQ v)) in *. set (u := unit_of v). assert (P := p2_pos (- u)).
  apply Qlt_le_trans with (p2 e * p2 (- u))%Q; [apply Qmult_lt_compat_r; assumption|]. rewrite <- p2_plus. apply p2_le_up. unfold u, unit_of. fold e. lia.
Qed.

Lemma rounded_double : forall v, (0 < v)%Q -> (rounded v < p2 1024)%Q -> double (rounded v).
Proof.
  intros v H L. pose proof (rounded_nonneg v H) as N0. pose proof (scaled_upper v H) as S. unfold rounded in *. set (u := unit_of v) in *. set (n := round_half_even (v * p2 (- u))) in *.
  assert (N1 : 0 <= n). { apply round_ge. change (inject_Z 0) with 0%Q. assert (P := p2_pos (- u)). apply Qmult_le_0_compat; lra. }
  assert (N2 : n <= 2 ^ 53). { apply round_le. rewrite <- p2_int by lia. apply Qlt_le_weak. exact S. }
  assert (U : -1074 <= u) by (unfold u, unit_of; lia).
  assert (A : (Qabs (inject_Z n * p2 u) < Qpower (2#1) 1024)%Q) by (rewrite Qabs_pos by exact N0; exact L).
  destruct (Z.eq_dec n (2 ^ 53)) as [E|NE].
  - exists 1, (53 + u). split; [lia|]. split; [lia|]. split; [|exact A]. rewrite E, <- p2_int, <- p2_plus by lia. fold (p2 (53 + u)). change (inject_Z 1) with 1%Q. ring.
  - exists n, u. split; [lia|]. split; [exact U|]. split; [reflexivity|exact A].
Qed.

Lemma double_nearest : forall v w, (0 < v)%Q -> double w -> (Qabs (rounded v - v) <= Qabs (w - v))%Q.
Proof.
  intros v w H (n & k & N & K & E & _). fold (p2 k) in E. destruct (exponent_bounds v H) as [B1 B2]. set (e := snd (frexpQ v)) in *.
  assert (G : unit_of v <= k -> (Qabs (rounded v - v) <= Qabs (w - v))%Q).
  { intros U. setoid_replace w with (inject_Z (n * 2 ^ (k - unit_of v)) * p2 (unit_of v))%Q; [apply grid_nearest|].
    rewrite inject_Z_mult, <- p2_int, <- Qmult_assoc, <- p2_plus by lia. replace (k - unit_of v + unit_of v) with k by lia. exact E. }
  destruct (Z_le_gt_dec (unit_of v) k) as [U|U]; [now apply G|].
  assert (UE : unit_of v = e - 53) by (clear G; unfold unit_of in U |- *; fold e in U |- *; lia).
  assert (W : (w <= p2 (e - 1))%Q).
  { rewrite E. assert (PK := p2_pos k). apply Qle_trans with (p2 53 * p2 k)%Q.
    - apply Qmult_le_compat_r; [|lra]. rewrite p2_int by lia. rewrite <- Zle_Qle. lia.
    - rewrite <- p2_plus. apply p2_le_up. lia. }
  apply Qle_trans with (Qabs (p2 (e - 1) - v))%Q.
  - setoid_replace (p2 (e - 1)) with (inject_Z (2 ^ 52) * p2 (unit_of v))%Q; [apply grid_nearest|]. rewrite <- p2_int, <- p2_plus by lia. rewrite UE. replace (52 + (e - 53)) with (e - 1) by lia. reflexivity.
  - rewrite !Qabs_neg by lra. lra.
Qed.

(** Half a unit below an even number is rounded up. *)
Lemma round_up_half : forall q, (inject_Z (2 ^ 53) - (1#2) <= q)%Q -> 2 ^ 53 <= round_half_even q.
Proof.
  intros q H. destruct (Qlt_le_dec q (inject_Z (2 ^ 53))) as [L|L]; [|now apply round_ge].
  unfold round_half_even. destruct q as [a d]. unfold Qle, Qlt, Qminus, Qplus, Qopp, inject_Z in *. cbn [Qnum Qden] in *.
  pose proof (Z.div_mod a (Zpos d) ltac:(lia)) as E. pose proof (Z.mod_pos_bound a (Zpos d) ltac:(lia)) as B.
  set (f := a / Zpos d) in *. set (r := a mod Zpos d) in *. rewrite ?Pos.mul_1_l, ?Pos.mul_1_r in *.
  assert (F : f = 2 ^ 53 - 1) by nia.
  assert (R : Zpos d <= 2 * r) by nia.
  destruct (Z.ltb_spec (2 * r) (Zpos d)); [lia|]. destruct (Z.ltb_spec (Zpos d) (2 * r)); [lia|].
  rewrite F. change (Z.even (2 ^ 53 - 1)) with false. cbn iota. lia.
Qed.

(** The conversion to a float gives the nearest number that a float can hold, or an OverflowError from [too_large] on. *)
Lemma overflow_bound : forall v, (0 < v)%Q -> (p2 1024 <= rounded v)%Q <-> (too_large <= v)%Q.
Proof.
  intros v H. unfold too_large. fold (p2 1024) (p2 970). destruct (exponent_bounds v H) as [B1 B2]. set (e := snd (frexpQ v)) in *.
  assert (P970 := p2_pos 970). assert (P971 := p2_succ 970). change (970 + 1) with 971 in P971. assert (P1024 := p2_plus 53 971). change (53 + 971) with 1024 in P1024.
  assert (Q971 := p2_pos 971). assert (Q53 : (p2 53 == inject_Z (2 ^ 53))%Q) by (apply p2_int; lia).
  split.
  - intros R. apply Qnot_lt_le. intros L.
    (* the largest float is nearer *)
    assert (E : e <= 1024). { assert (p2 (e - 1) < p2 1024)%Q by lra. apply p2_lt_down in H0. lia. }
    assert (U : unit_of v <= 971) by (unfold unit_of; fold e; lia).
    assert (X : (Qabs (rounded v - v) <= Qabs (p2 1024 - p2 971 - v))%Q).
    { setoid_replace (p2 1024 - p2 971)%Q with (inject_Z ((2 ^ 53 - 1) * 2 ^ (971 - unit_of v)) * p2 (unit_of v))%Q; [apply grid_nearest|].
      rewrite inject_Z_mult, <- p2_int, <- Qmult_assoc, <- p2_plus by lia. replace (971 - unit_of v + unit_of v) with 971 by lia.
      unfold Z.sub. rewrite inject_Z_plus. rewrite <- Q53. change (inject_Z (- (1))) with (-(1))%Q. rewrite P1024. ring. }
    rewrite (Qabs_pos (rounded v - v)) in X by lra.
    destruct (Qlt_le_dec v (p2 1024 - p2 971)) as [V|V].
    + (* then v is below the largest float, but the rounded value is above it *)
      rewrite Qabs_pos in X by lra. lra.
    + rewrite Qabs_neg in X by lra. lra.
  - intros L. assert (E : 1024 <= e). { assert (p2 1023 < p2 e)%Q. { pose proof (p2_succ 1023) as S. change (1023 + 1) with 1024 in S. assert (p2 970 < p2 1023)%Q by (apply p2_lt_up; lia). lra. } apply p2_lt_down in H0. lia. }
    assert (UE : unit_of v = e - 53) by (unfold unit_of; fold e; lia). unfold rounded. rewrite UE. rewrite P1024.
    destruct (Z.eq_dec e 1024) as [E1|E1].
    + replace (e - 53) with 971 by lia. apply Qmult_le_compat_r; [|lra]. rewrite Q53, <- Zle_Qle.
      set (q := (v * p2 (- (971)))%Q). assert (I := p2_inv 971). assert (P' := p2_pos (-(971))).
      assert (QB : (inject_Z (2 ^ 53) - (1#2) <= q)%Q).
      { rewrite <- Q53. unfold q. assert (Y : ((p2 1024 - p2 970) * p2 (-(971)) <= v * p2 (-(971)))%Q) by (apply Qmult_le_compat_r; lra).
        setoid_replace ((p2 1024 - p2 970) * p2 (-(971)))%Q with (p2 53 - (1#2))%Q in Y; [exact Y|].
        rewrite P1024. setoid_replace (p2 970) with ((1#2) * p2 971)%Q by lra. setoid_replace ((p2 53 * p2 971 - (1#2) * p2 971) * p2 (-(971)))%Q with ((p2 53 - (1#2)) * (p2 971 * p2 (-(971))))%Q by ring. rewrite I. ring. }
      apply round_up_half. exact QB.
    + apply Qle_trans with (inject_Z (2 ^ 52) * p2 (e - 53))%Q.
      * rewrite <- p2_int, <- !p2_plus by lia. apply p2_le_up. lia.
      * assert (PE := p2_pos (e - 53)). apply Qmult_le_compat_r; [|lra]. rewrite <- Zle_Qle. apply round_ge. rewrite <- p2_int by lia.
        destruct (scaled_bounds v H) as [S _]. fold e in S. replace (- (e - 53)) with (53 - e) by lia. exact S.
Qed.

(** The conversion gives a number that a float can hold, the nearest; it fails exactly from [too_large] on. *)
Theorem C109_nearest : forall v, (0 < v)%Q ->
  (float64 v = Err OverflowError <-> (too_large <= v)%Q) /\
  (forall e, float64 v = Err e -> e = OverflowError) /\
  (forall w, float64 v = Ok w -> double w /\ forall w', double w' -> (Qabs (w - v) <= Qabs (w' - v))%Q).
Proof.
  intros v H. rewrite float64_pos by exact H. pose proof (rounded_nonneg v H) as N. pose proof (overflow_bound v H) as B.
  destruct (Qle_bool (p2 1024) (Qabs (rounded v))) eqn:E.
  - apply Qle_bool_iff in E. rewrite Qabs_pos in E by exact N. split; [split; [intros _; now apply B|reflexivity]|]. split; [intros e X; congruence|discriminate].
  - assert (L : (rounded v < p2 1024)%Q). { apply Qnot_le_lt. intros C. assert (X : Qle_bool (p2 1024) (Qabs (rounded v)) = true) by (apply Qle_bool_iff; rewrite Qabs_pos; assumption). congruence. }
    split; [split; [discriminate|intros T; apply B in T; lra]|]. split; [discriminate|]. intros w W. injection W as <-. split; [now apply rounded_double|]. intros w' D. now apply double_nearest.
Qed.
Print Assumptions C109_nearest.

Lemma log_dots_proper : forall m m', (m == m')%Q ->
  (let (a, e) := frexpQ (1 - m) in - e - (if Qle_bool a (1 # 2) then 0 else 1)) = (let (a, e) := frexpQ (1 - m') in - e - (if Qle_bool a (1 # 2) then 0 else 1)).
Proof.
  intros m m' E. assert (EM : (1 - m == 1 - m')%Q) by (rewrite E; reflexivity).
  pose proof (frexpQ_snd_proper _ _ EM) as X1. pose proof (frexpQ_fst_proper _ _ EM) as X2. cbn in X1, X2.
  destruct (frexpQ (1 - m)), (frexpQ (1 - m')). cbn in X1, X2. subst. rewrite (Qleb_comp _ _ X2 (1#2) (1#2) (Qeq_refl _)). reflexivity.
Qed.
Lemma log_dotcount64_eq : forall v w, float64 v = Ok w -> (w == to_float v)%Q -> log_dotcount64 v = Ok (log_dotcount v).
Proof.
  intros v w F E. unfold log_dotcount64, frexp64, log_dotcount, frexp. rewrite F. cbn [bindr].
  pose proof (frexpQ_snd_proper _ _ E) as X1. pose proof (frexpQ_fst_proper _ _ E) as X2. cbn in X1, X2.
  destruct (frexpQ w) as [m1 e1], (frexpQ (to_float v)) as [m2 e2]. cbn in X1, X2. subst e1. cbn [bindr].
  pose proof (log_dots_proper m1 m2 X2) as P. destruct (frexpQ (1 - m1)), (frexpQ (1 - m2)). rewrite P. reflexivity.
Qed.
Lemma is_writable64_eq : forall v w, float64 v = Ok w -> (w == to_float v)%Q -> is_writable64 v = Ok (is_writable v).
Proof.
  intros v w F E. unfold is_writable64, frexp64, is_writable, frexp. rewrite F. cbn [bindr].
  pose proof (frexpQ_snd_proper _ _ E) as X1. pose proof (frexpQ_fst_proper _ _ E) as X2. cbn in X1, X2.
  destruct (frexpQ w) as [m1 e1], (frexpQ (to_float v)) as [m2 e2]. cbn in X1, X2. subst e1. cbn [bindr].
  assert (EM : (1 - m1 == 1 - m2)%Q) by (rewrite X2; reflexivity). pose proof (frexpQ_fst_proper _ _ EM) as X3. cbn beta in X3.
  rewrite (Qeqb_comp _ _ X3 (1#2) (1#2) (Qeq_refl _)). reflexivity.
Qed.
Lemma to_string64_eq : forall v, log_dotcount64 v = Ok (log_dotcount v) -> to_string64 v = to_string v.
Proof. intros v E. unfold to_string64, to_string. rewrite E. cbn [bindr]. destruct (log_dotcount v). reflexivity. Qed.

(** In the range of the floats with full precision the functions are those of Duration_Model, so that its theorems hold of them. *)
Theorem C109_agrees : forall v, (smallest <= v)%Q -> (v < too_large)%Q ->
  log_dotcount64 v = Ok (log_dotcount v) /\ to_string64 v = to_string v /\ is_writable64 v = Ok (is_writable v).
Proof.
  intros v S L. unfold smallest in S. fold (p2 (-1022)) in S. assert (H : (0 < v)%Q) by (assert (P := p2_pos (-1022)); lra).
  destruct (C109_nearest v H) as (O & OE & _). destruct (float64 v) as [w|e] eqn:F; [|rewrite (OE e eq_refl) in O; assert (too_large <= v)%Q by (now apply O); lra].
  assert (W : w = rounded v). { rewrite float64_pos in F by exact H. destruct (Qle_bool _ _); [discriminate|]. now injection F as <-. }
  assert (E : (w == to_float v)%Q).
  { rewrite W, to_float_pos by exact H. unfold rounded. destruct (exponent_bounds v H) as [B1 B2].
    assert (X : -1022 < snd (frexpQ v)) by (apply p2_lt_down; lra).
    assert (U : unit_of v = snd (frexpQ v) - 53) by (unfold unit_of; lia). rewrite U. replace (- (snd (frexpQ v) - 53)) with (53 - snd (frexpQ v)) by lia. reflexivity. }
  split; [exact (log_dotcount64_eq v w F E)|]. split; [exact (to_string64_eq v (log_dotcount64_eq v w F E))|exact (is_writable64_eq v w F E)].
Qed.
Print Assumptions C109_agrees.

(** A duration with at most 52 dots keeps its log and dots, down to the smallest float.
    Missing for the full claim: more dots (C04_log_dotcount_roundtrip_refuted), shorter durations (C109_underflow_finding), longer ones
    (C109_overflow_finding). *)
Theorem C109_roundtrip_partial : forall log dots, 0 <= dots <= 52 -> 0 <= dots + log + 3 -> log + dots <= 1074 ->
  exists v, duration log dots = Ok v /\ (v == dotted log dots)%Q /\ log_dotcount64 v = Ok (log, dots).
Proof.
  intros l d D P M. destruct (duration_value l d ltac:(lia) P) as (v & E & V). exists v. split; [exact E|]. split; [exact V|].
  assert (H : (0 < v)%Q) by (rewrite V; apply dotted_pos; lia).
  destruct (dotted_frexp l d v ltac:(lia) V) as [_ G].
  assert (U : unit_of v <= - l - d) by (unfold unit_of; rewrite G; lia).
  assert (N : (v == inject_Z (2 ^ (d + 1) - 1) * p2 (- l - d))%Q).
  { rewrite V. unfold dotted. fold (p2 (-l)) (p2 (-d)). unfold Z.sub at 1. rewrite inject_Z_plus, <- p2_int by lia.
    change (inject_Z (-(1))) with (-1#1). replace (-l - d) with (-l + -d) by lia. rewrite p2_succ, p2_plus. assert (I := p2_inv d).
    setoid_replace ((2 * p2 d + (-1#1)) * (p2 (-l) * p2 (-d)))%Q with (p2 (-l) * (2 * (p2 d * p2 (-d)) - p2 (-d)))%Q by ring. rewrite I. ring. }
  assert (R : (rounded v == v)%Q).
  { unfold rounded. set (u := unit_of v) in *. rewrite (round_half_even_int _ ((2 ^ (d + 1) - 1) * 2 ^ (- l - d - u))).
    - rewrite inject_Z_mult, <- (p2_int (- l - d - u)), <- Qmult_assoc, <- p2_plus by lia. replace (- l - d - u + u) with (- l - d) by lia. symmetry. exact N.
    - rewrite inject_Z_mult, <- (p2_int (- l - d - u)) by lia. rewrite N at 1. rewrite <- Qmult_assoc, <- p2_plus. replace (- l - d + - u) with (- l - d - u) by lia. reflexivity. }
  assert (B : (v < p2 1024)%Q). { destruct (exponent_bounds v H) as [_ B]. rewrite G in B. assert (p2 (1 - l) <= p2 1024)%Q by (apply p2_le_up; lia). lra. }
  assert (F : float64 v = Ok (rounded v)).
  { rewrite float64_pos by exact H. destruct (Qle_bool (p2 1024) (Qabs (rounded v))) eqn:Q; [|reflexivity]. apply Qle_bool_iff in Q. rewrite Qabs_pos in Q by (rewrite R; lra). rewrite R in Q. lra. }
  rewrite (log_dotcount64_eq v (rounded v) F).
  - now rewrite (log_dotcount_dotted l d v D V).
  - rewrite R. symmetry. apply to_float_exact; [exact H|]. eapply float53_proper; [symmetry; exact V|now apply dotted_float53].
Qed.
Print Assumptions C109_roundtrip_partial.

(** Everything up to half of the smallest float is taken for 0: the log is 1 and there is a negative number of dots; it is written as a half note, and
    said to be written exactly. *)
Theorem C109_underflow_finding : forall v, (0 < v)%Q -> (v <= Qpower (2#1) (-1075))%Q ->
  log_dotcount64 v = Ok (1, -1) /\ to_string64 v = Ok (txt "2") /\ is_writable64 v = Ok true.
Proof.
  intros v H L. fold (p2 (-1075)) in L. destruct (exponent_bounds v H) as [B1 B2].
  assert (X : snd (frexpQ v) - 1 <= -1075) by (apply p2_le_down; lra).
  assert (U : unit_of v = -1074) by (unfold unit_of; lia).
  assert (R : round_half_even (v * p2 (- unit_of v)) = 0).
  { rewrite U. change (- (-1074)) with 1074. assert (P := p2_pos 1074).
    assert (Q : (v * p2 1074 <= 1#2)%Q). { apply Qle_trans with (p2 (-1075) * p2 1074)%Q; [apply Qmult_le_compat_r; lra|]. rewrite <- p2_plus. change (-1075 + 1074) with (-1). vm_compute. discriminate. }
    assert (Q0 : (0 < v * p2 1074)%Q). { setoid_replace 0%Q with (0 * p2 1074)%Q by ring. apply Qmult_lt_compat_r; assumption. }
    revert Q Q0. generalize (v * p2 1074)%Q. intros q Q Q0. unfold round_half_even. destruct q as [a b]. unfold Qle, Qlt in *. cbn [Qnum Qden] in *.
    assert (A : a < Zpos b) by lia. rewrite Z.div_small, Z.mod_small by lia. destruct (Z.ltb_spec (2 * a) (Zpos b)); [reflexivity|].
    destruct (Z.ltb_spec (Zpos b) (2 * a)); [lia|reflexivity]. }
  assert (Z0 : (rounded v == 0)%Q) by (unfold rounded; rewrite R; change (inject_Z 0) with 0%Q; ring).
  assert (F : float64 v = Ok (rounded v)).
  { rewrite float64_pos by exact H. destruct (Qle_bool (p2 1024) (Qabs (rounded v))) eqn:Q; [|reflexivity]. apply Qle_bool_iff in Q. rewrite Z0 in Q. change (Qabs 0) with 0%Q in Q. assert (P := p2_pos 1024). lra. }
  assert (FR : frexpQ (rounded v) = (0%Q, 0)) by (unfold frexpQ; rewrite (proj2 (Qeq_bool_iff (rounded v) 0) Z0); reflexivity).
  assert (LD : log_dotcount64 v = Ok (1, -1)) by (unfold log_dotcount64, frexp64; rewrite F; cbn [bindr]; rewrite FR; reflexivity).
  split; [exact LD|]. split.
  - unfold to_string64. rewrite LD. reflexivity.
  - unfold is_writable64, frexp64. rewrite F. cbn [bindr]. rewrite FR. reflexivity.
Qed.
Print Assumptions C109_underflow_finding.

Theorem C109_overflow_finding : forall v, (too_large <= v)%Q ->
  log_dotcount64 v = Err OverflowError /\ to_string64 v = Err OverflowError /\ is_writable64 v = Err OverflowError.
Proof.
  intros v L. assert (H : (0 < v)%Q). { unfold too_large in L. fold (p2 1024) (p2 970) in L. assert (p2 970 < p2 1024)%Q by (apply p2_lt_up; lia). lra. }
  assert (F : float64 v = Err OverflowError) by (now apply C109_nearest).
  unfold to_string64, log_dotcount64, is_writable64, frexp64. rewrite F. cbn [bindr]. repeat split; reflexivity.
Qed.
Print Assumptions C109_overflow_finding.

(** A quarter note with a dot and the shortest note a float holds. *)
Example C109_witness :
  log_dotcount64 (3#8) = Ok (2, 1) /\ (smallest <= 3#8)%Q /\ (3#8 < too_large)%Q /\
  (exists v, duration 1074 0 = Ok v /\ log_dotcount64 v = Ok (1074, 0) /\ (v < smallest)%Q) /\
  (exists v, duration 1075 0 = Ok v /\ to_string64 v = Ok (txt "2")).
Proof.
  split; [vm_compute; reflexivity|]. split; [vm_compute; discriminate|]. split; [vm_compute; reflexivity|]. split.
  - eexists. split; [reflexivity|]. split; vm_compute; reflexivity.
  - eexists. split; [reflexivity|]. vm_compute. reflexivity.
Qed.
