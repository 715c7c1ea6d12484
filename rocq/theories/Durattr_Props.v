(** The duration attributes and the text of durations: the property C102. *)
From Coq Require Import String Ascii List ZArith QArith Bool Lia.
From Verif Require Import Base Duration_Model Duration_Spec Duration_Text Duration_Props Heads_Model Heads_Props Rhythm_Model Durattr_Model Durattr_Spec.
Import ListNotations.
Local Open Scope string_scope.
Local Open Scope list_scope.
Open Scope Q_scope.

Lemma fold_mult : forall l a, fold_left Qmult l a == a * fold_left Qmult l 1.
Proof.
  induction l as [|x l IH]; intros a; cbn [fold_left]; [ring|]. rewrite (IH (a * x)), (IH (1 * x)). ring.
Qed.
Lemma product_fold : forall l p, shows_product l p <-> p == fold_left Qmult l 1.
Proof.
  induction l as [|s l IH]; intros p; cbn [fold_left].
  - split; [intros H; inversion H; assumption|intros H; constructor; exact H].
  - rewrite fold_mult. split.
    + intros H. inversion H as [|? ? p0 ? H1 H2]; subst. apply IH in H1. rewrite H2, H1. ring.
    + intros H. econstructor; [apply IH; reflexivity|]. rewrite H. ring.
Qed.

(** The getters give what is shown. *)
Theorem C102_get : forall durs,
  shows durs (duration_scaling durs) /\ get_duration durs = option_map fst (duration_scaling durs) /\ scaling durs = option_map snd (duration_scaling durs).
Proof.
  intros [|[v l] r]; cbn [duration_scaling get_duration scaling option_map dur_value fst snd]; (split; [|auto]); [constructor|]. constructor. now apply product_fold.
Qed.

(** Setting the duration changes only that, or makes a Duration without scaling. *)
Theorem C102_set_duration : forall v durs, get_duration (set_duration (Some v) durs) = Some v /\
  scaling (set_duration (Some v) durs) = (match durs with [] => Some 1 | _ => scaling durs end) /\ tl (set_duration (Some v) durs) = tl durs.
Proof. intros v [|[h l] r]; repeat split. Qed.

(** Deleting it, or setting None, takes the scaling away as well. *)
Theorem C102_delete_duration : forall durs, set_duration None durs = tl durs /\ del_duration durs = tl durs /\ set_duration_scaling None durs = Ok (tl durs) /\
  (forall d, duration_scaling (set_duration None [d]) = None /\ get_duration (set_duration None [d]) = None /\ scaling (set_duration None [d]) = None).
Proof. intros durs. destruct durs as [|[h l] r]; (split; [reflexivity|split; [reflexivity|split; [reflexivity|intros [v s]; auto]]]). Qed.

Lemma set_scaling_ok : forall v h l r, (length l <= 2)%nat -> ~ v == 1 -> exists x, set_scaling (Some v) ((h, l) :: r) = Ok ((h, [x]) :: r) /\ x = v.
Proof.
  intros v h l r L N. unfold set_scaling, one_or_none. assert (E : Qeq_bool v 1 = false) by (destruct (Qeq_bool v 1) eqn:E; [apply Qeq_bool_iff in E; contradiction|reflexivity]). rewrite E.
  destruct l as [|a [|b [|c l]]]; cbn [length] in L; try lia; eexists; split; reflexivity.
Qed.

(** Setting the scaling, where there is a duration: the scaling has that value and the duration is the same.
    Missing for the full claim: Durations with more scalings than [most], where it is false (the finding below). *)
Theorem C102_set_scaling_partial : forall value h l r, (length l <= most value)%nat ->
  exists l', set_scaling value ((h, l) :: r) = Ok ((h, l') :: r) /\ shows ((h, l') :: r) (Some (h, match value with Some v => v | None => 1 end)) /\
    (match value with Some v => v == 1 | None => True end -> l' = []).
Proof.
  intros [v|] h l r L; cbn [most] in L.
  - destruct (Qeq_bool v 1) eqn:E.
    + assert (V : v == 1) by (apply Qeq_bool_iff; exact E). exists []. split; [|split; [constructor; constructor; exact V|reflexivity]].
      unfold set_scaling, one_or_none. rewrite E. destruct l as [|a [|b l]]; [reflexivity|reflexivity|cbn in L; lia].
    + assert (V : ~ v == 1) by (intros V; apply Qeq_bool_iff in V; congruence). destruct (set_scaling_ok v h l r L V) as (x & -> & ->). exists [v]. split; [reflexivity|]. split; [|contradiction].
      constructor. econstructor; [constructor; reflexivity|]. ring.
  - exists []. split; [|split; [constructor; constructor; reflexivity|reflexivity]]. destruct l as [|a [|b l]]; [reflexivity|reflexivity|cbn in L; lia].
Qed.

(** Where there is none. *)
Theorem C102_no_duration : forall v, (set_scaling (Some v) [] = Err ValueError <-> ~ v == 1) /\ (v == 1 -> set_scaling (Some v) [] = Ok []) /\ set_scaling None [] = Ok [] /\ del_scaling [] = Ok [].
Proof.
  intros v. unfold set_scaling, one_or_none, del_scaling, set_scaling, one_or_none. destruct (Qeq_bool v 1) eqn:E.
  - apply Qeq_bool_iff in E. repeat split; try discriminate; try contradiction.
  - assert (V : ~ v == 1) by (intros V; apply Qeq_bool_iff in V; congruence). repeat split; auto. contradiction.
Qed.

(** Both in one go.
    Missing for the full claim: a Duration with more scalings (C102_scalings_finding). *)
Theorem C102_set_both_partial : forall v s durs, match durs with (_, l) :: _ => (length l <= most (Some s))%nat | [] => True end ->
  exists d, set_duration_scaling (Some (v, s)) durs = Ok (d :: tl durs) /\ shows (d :: tl durs) (Some (v, s)) /\ (length (snd d) <= 1)%nat.
Proof.
  intros v s durs L. unfold set_duration_scaling. destruct durs as [|[h l] r]; cbn [set_duration tl].
  - destruct (C102_set_scaling_partial (Some s) v [] []) as (l' & E & S & N); [cbn; lia|]. exists (v, l'). split; [exact E|]. split; [exact S|]. unfold set_scaling, one_or_none in E. destruct (Qeq_bool s 1); injection E as <-; cbn; lia.
  - destruct (C102_set_scaling_partial (Some s) v l r L) as (l' & E & S & N). exists (v, l'). split; [exact E|]. split; [exact S|]. unfold set_scaling, one_or_none in E. cbn [most] in L. destruct l as [|a [|b [|c l]]]; destruct (Qeq_bool s 1); cbn [length] in L; try lia; injection E as <-; cbn; lia.
Qed.

(** Finding: with three scalings the second one survives when the scaling is set, with two when it is removed. *)
Theorem C102_scalings_finding : forall v h a b c, ~ v == 1 ->
  set_scaling (Some v) [(h, [a; b; c])] = Ok [(h, [v; c])] /\ set_scaling None [(h, [a; b])] = Ok [(h, [b])].
Proof.
  intros v h a b c N. split; [|reflexivity]. unfold set_scaling, one_or_none. destruct (Qeq_bool v 1) eqn:E; [apply Qeq_bool_iff in E; contradiction|reflexivity].
Qed.

(** ** The text *)

Lemma split_star1 : forall s, ~ In "*"%char s -> forall cur, split_on "*" cur s = [List.rev cur ++ s].
Proof. induction s as [|c s IH]; intros N cur; cbn [split_on]; [rewrite app_nil_r; reflexivity|]. destruct (Ascii.eqb_spec c "*") as [->|NE]; [exfalso; apply N; left; reflexivity|]. rewrite IH by (intros I; apply N; right; exact I). cbn [List.rev]. rewrite <- app_assoc. reflexivity. Qed.
Lemma split_star : forall s t, ~ In "*"%char s -> forall cur, split_on "*" cur (s ++ "*"%char :: t) = (List.rev cur ++ s) :: split_on "*" [] t.
Proof.
  intros s t N. induction s as [|c s IH]; intros cur; cbn [split_on app].
  - rewrite Ascii.eqb_refl, app_nil_r. reflexivity.
  - destruct (Ascii.eqb_spec c "*") as [->|NE]; [exfalso; apply N; left; reflexivity|]. rewrite IH by (intros I; apply N; right; exact I). cbn [List.rev]. rewrite <- app_assoc. reflexivity.
Qed.

Lemma digit_no_star : forall s, Forall is_digit s -> ~ In "*"%char s.
Proof. intros s F I. rewrite Forall_forall in F. specialize (F _ I). unfold is_digit in F. cbn in F. lia. Qed.
Lemma dec_no_star : forall n, ~ In "*"%char (dec n).
Proof. intros n. apply digit_no_star. apply dec_digits. Qed.
Lemma int_no_star : forall z, ~ In "*"%char (str_int z).
Proof. intros z. unfold str_int. destruct (z <? 0)%Z; [|apply dec_no_star]. intros [E|I]; [discriminate|exact (dec_no_star _ I)]. Qed.
Lemma fraction_no_star : forall q, ~ In "*"%char (str_fraction q).
Proof.
  intros q. unfold str_fraction. destruct (Qden (Qred q)); try apply int_no_star; intros I; apply in_app_iff in I; destruct I as [I|[I|I]]; try discriminate; exact (int_no_star _ I).
Qed.
Lemma dots_no_star : forall k, ~ In "*"%char (repeat "."%char k).
Proof. intros k I. apply repeat_spec in I. discriminate. Qed.
Lemma name_no_star : forall l s, name_of l s -> ~ In "*"%char s.
Proof. intros l s [[_ ->]|[[_ ->]|[_ ->]]]; cbn; intuition discriminate. Qed.

Lemma split_scalings : forall l s, ~ In "*"%char s -> split "*" (s ++ flat_map (fun q => "*"%char :: str_fraction q) l) = s :: map str_fraction l.
Proof.
  unfold split. induction l as [|q l IH]; intros s N; cbn [flat_map map].
  - rewrite app_nil_r, split_star1 by exact N. reflexivity.
  - cbn [app]. rewrite split_star by exact N. cbn [List.rev app]. f_equal. rewrite IH; [reflexivity|apply fraction_no_star].
Qed.
Lemma scalings_read : forall l a, exists r, scalings a (map str_fraction l) = Ok r /\ r == fold_left Qmult l a.
Proof.
  induction l as [|q l IH]; intros a; [exists a; split; reflexivity|]. cbn [map scalings fold_left]. destruct (py_fraction_str q) as (f & E & F). rewrite E. cbn [bindr]. destruct (IH (a * f)) as (r & R & S). exists r. split; [exact R|]. rewrite S, (fold_mult l (a * f)), (fold_mult l (a * q)), F. reflexivity.
Qed.

(** A text of a duration, followed by any number of scalings. *)
Theorem C102_from_string : forall base v scs, ~ In "*"%char base -> from_string base None = Ok v ->
  exists n, duration_from_string (base ++ flat_map (fun q => "*"%char :: str_fraction q) scs) = Ok n /\
    fst n = v /\ shows_product (snd n) (fold_left Qmult scs 1) /\ (length (snd n) <= 1)%nat.
Proof.
  intros base v scs N F. unfold duration_from_string. rewrite split_scalings by exact N. destruct (scalings_read scs 1) as (r & R & S). rewrite R. cbn [bindr]. rewrite F. cbn [bindr]. unfold from_duration.
  eexists. split; [reflexivity|]. cbn [fst snd]. split; [reflexivity|]. destruct (Qeq_bool r 1) eqn:E.
  - split; [|cbn; lia]. constructor. rewrite <- S. now apply Qeq_bool_iff.
  - split; [|cbn; lia]. econstructor; [constructor; reflexivity|]. rewrite <- S. ring.
Qed.
Theorem C102_from_string_error : forall base scs e, ~ In "*"%char base -> from_string base None = Err e ->
  duration_from_string (base ++ flat_map (fun q => "*"%char :: str_fraction q) scs) = Err e.
Proof.
  intros base scs e N F. unfold duration_from_string. rewrite split_scalings by exact N. destruct (scalings_read scs 1) as (r & R & _). rewrite R. cbn [bindr]. rewrite F. reflexivity.
Qed.

Lemma written_scalings : forall l, exists l', flat_map scaling_write l = flat_map (fun q => "*"%char :: str_fraction q) l' /\ fold_left Qmult l' 1 == fold_left Qmult l 1.
Proof.
  induction l as [|q l (l' & E & F)]; [exists []; split; reflexivity|]. cbn [flat_map]. unfold scaling_write at 1. destruct (Qeq_bool q 1) eqn:Q1.
  - exists l'. split; [rewrite E; reflexivity|]. cbn [fold_left]. apply Qeq_bool_iff in Q1. rewrite (fold_mult l (1 * q)), F, Q1. ring.
  - exists (q :: l'). split; [cbn [flat_map]; rewrite E; reflexivity|]. cbn [fold_left]. rewrite (fold_mult l'), (fold_mult l (1 * q)), F. reflexivity.
Qed.
(** What is written is read back: the same duration and scaling.
    Missing for the full claim: more than 52 dots. *)
Theorem C102_text_partial : forall v l d scs, (-3 <= l)%Z -> (0 <= d <= 52)%Z -> v == dotted l d ->
  exists text n, duration_text (v, scs) = Ok text /\ duration_from_string text = Ok n /\ fst n == v /\ shows_product (snd n) (fold_left Qmult scs 1).
Proof.
  intros v l d scs L D V. destruct (C06_notation_roundtrip_partial v l d L D V) as (b & TS & NB & (w & FS & W) & _).
  destruct (written_scalings scs) as (l' & E & F).
  assert (N : ~ In "*"%char (b ++ repeat "."%char (Z.to_nat d))).
  { intros I. apply in_app_iff in I. destruct I as [I|I]; [|exact (dots_no_star _ I)]. destruct (l <? 0)%Z.
    - destruct NB as (s & NM & ->). destruct I as [I|I]; [discriminate|exact (name_no_star _ _ NM I)].
    - destruct NB as (DG & _). exact (digit_no_star _ DG I). }
  destruct (C102_from_string _ w l' N FS) as (n & R & V' & P & _). exists ((b ++ repeat "."%char (Z.to_nat d)) ++ flat_map scaling_write scs), n. split; [unfold duration_text; cbn [fst snd]; rewrite TS; reflexivity|].
  split; [rewrite E; exact R|]. split; [rewrite V'; exact W|]. apply product_fold. apply product_fold in P. rewrite <- F, <- P. reflexivity.
Qed.
Print Assumptions C102_get.
Print Assumptions C102_set_duration.
Print Assumptions C102_delete_duration.
Print Assumptions C102_set_scaling_partial.
Print Assumptions C102_no_duration.
Print Assumptions C102_set_both_partial.
Print Assumptions C102_scalings_finding.
Print Assumptions C102_from_string.
Print Assumptions C102_from_string_error.
Print Assumptions C102_text_partial.

Example C102_witness : duration_from_string (txt "4.*2/3*5") = Ok (24 # 64, [10 # 3]) /\ duration_text (3 # 8, [2 # 3; 5; 1]) = Ok (txt "4.*2/3*5") /\
  duration_from_string (txt "1*1/3") = Ok (8 # 8, [1 # 3]) /\ duration_from_string (txt "1*") = Err ValueError /\
  set_duration_scaling (Some (1 # 4, 2 # 3)) [(1 # 8, [5 # 1])] = Ok [(1 # 4, [2 # 3])] /\ scaling [(1 # 8, [])] = Some 1 /\
  3 # 8 == dotted 2 1.
Proof. repeat split; vm_compute; reflexivity. Qed.
