(** Property C123: rhythm edits done again, and one after another. *)
From Coq Require Import List ZArith QArith Bool Lia.
From Verif Require Import Base Duration_Model Duration_Spec Duration_Proofs Duration_Text Rhythm_Model Rhythm_Spec Rhythm_Proofs Rhythm_Lists Rhythm_Text Rhythm_Props.
Import ListNotations.
Open Scope nat_scope.

(** ** Lists *)
Lemma Forall2_comp {A B C} (R : A -> B -> Prop) (S : B -> C -> Prop) a b : Forall2 R a b -> forall c, Forall2 S b c -> Forall2 (fun x z => exists y, R x y /\ S y z) a c.
Proof. induction 1 as [|x y a b H F IH]; intros c G; inversion G; subst; constructor; eauto. Qed.
Lemma Forall2_and {A B} (R S : A -> B -> Prop) a b : Forall2 R a b -> Forall2 S a b -> Forall2 (fun x y => R x y /\ S x y) a b.
Proof. induction 1 as [|x y a b H F IH]; intros G; inversion G; subst; constructor; auto. Qed.
Lemma Forall2_back {A B} (R : A -> B -> Prop) a b : Forall2 R a b -> Forall2 (fun y x => R x y) b a.
Proof. induction 1; constructor; auto. Qed.
Lemma Forall2_weak {A B} (R S : A -> B -> Prop) a b : (forall x y, R x y -> S x y) -> Forall2 R a b -> Forall2 S a b.
Proof. intros H. induction 1; constructor; auto. Qed.
Lemma Forall2_right {A B} (R : A -> B -> Prop) (P : B -> Prop) a b : Forall P b -> Forall2 R a b -> Forall2 (fun x y => R x y /\ P y) a b.
Proof. intros F G. revert F. induction G; intros F; inversion F; subst; constructor; auto. Qed.
Lemma Forall2_only {A B} (P : B -> Prop) (a : list A) b : Forall2 (fun _ y => P y) a b -> Forall P b.
Proof. induction 1; constructor; auto. Qed.
Lemma Forall2_left {A B} (R : A -> B -> Prop) (P : A -> Prop) a b : Forall P a -> Forall2 R a b -> Forall2 (fun x y => P x /\ R x y) a b.
Proof. intros F G. revert F. induction G; intros F; inversion F; subst; constructor; auto. Qed.

(** ** Trees in which an edit has nothing to do *)
Section Same.
Context {S : Type}.
Variable f : process S.
Variable good : kind -> list dnode -> Prop.
Variable inr : list nat -> bool.
Hypothesis f_good : forall right before n st st' d, f right before n st = Ok (st', d) -> good (kind_of n) d.
Hypothesis f_same : forall right before n st, good (kind_of n) (durs_of n) -> exists st', f right before n st = Ok (st', durs_of n).

Fixpoint fine (path : list nat) (n : rn) : Prop :=
  match n with
  | RN k b durs kids =>
      (inr path = true -> good k durs) /\
      (fix go (i : nat) (l : list rn) : Prop := match l with [] => True | c :: r => fine (path ++ [i]) c /\ go (Datatypes.S i) r end) 0 kids
  end.
Fixpoint fines (path : list nat) (i : nat) (l : list rn) : Prop := match l with [] => True | c :: r => fine (path ++ [i]) c /\ fines path (Datatypes.S i) r end.
Lemma fine_eq path k b d kids : fine path (RN k b d kids) <-> (inr path = true -> good k d) /\ fines path 0 kids.
Proof.
  cbn [fine]. match goal with |- _ /\ ?a <-> _ /\ ?b => assert (E : a <-> b); [|tauto] end.
  generalize 0. induction kids as [|c r IH]; intros i; cbn [fines]; [tauto|]. rewrite (IH (Datatypes.S i)). tauto.
Qed.
Lemma visit_fine n : forall path right before st st' n', visit f inr path right before st n = Ok (st', n') -> fine path n'.
Proof.
  induction n as [k b d kids IH] using rn_ind2. intros path right before st st' n'. rewrite visit_eq.
  destruct (if inr path then f right before (RN k b d kids) st else Ok (st, d)) as [[s d1]|] eqn:F; cbn [bindr]; [|discriminate].
  destruct (visits f inr path 0 before s kids) as [[s2 kids']|] eqn:V; cbn [bindr]; [|discriminate]. intros [= <- <-].
  apply fine_eq. split.
  - intros I. rewrite I in F. exact (f_good _ _ _ _ _ _ F).
  - clear F. revert IH V. revert before s s2 kids'. generalize 0. induction kids as [|c r IHr]; intros i before s s2 kids' IH V.
    + cbn in V. injection V as _ <-. exact Logic.I.
    + cbn [visits] in V.
      destruct (visit f inr (path ++ [i]) (hd_error r) before s c) as [[s3 c']|] eqn:VC; cbn [bindr] in V; [|discriminate].
      destruct (visits f inr path (Datatypes.S i) (bwd c' ++ before) s3 r) as [[s4 r']|] eqn:VR; cbn [bindr] in V; [|discriminate].
      injection V as _ <-. cbn [fines]. split; [exact (Forall_inv IH _ _ _ _ _ _ VC)|exact (IHr _ (bwd c' ++ before) _ _ _ (Forall_inv_tail IH) VR)].
Qed.
Lemma visit_same n : forall path right before st, fine path n -> exists st', visit f inr path right before st n = Ok (st', n).
Proof.
  induction n as [k b d kids IH] using rn_ind2. intros path right before st F. apply fine_eq in F. destruct F as [F FK]. rewrite visit_eq.
  assert (exists s, (if inr path then f right before (RN k b d kids) st else Ok (st, d)) = Ok (s, d)) as (s & ->).
  { destruct (inr path); [|eauto]. exact (f_same right before (RN k b d kids) st (F eq_refl)). }
  cbn [bindr].
  assert (exists s', visits f inr path 0 before s kids = Ok (s', kids)) as (s' & ->); [|cbn [bindr]; eauto].
  clear F. revert s before FK IH. generalize 0. induction kids as [|c r IHr]; intros i s before FK IH; cbn [visits]; [eauto|].
  cbn [fines] in FK. destruct FK as [F1 F2]. destruct (Forall_inv IH (path ++ [i]) (hd_error r) before s F1) as (s1 & ->). cbn [bindr].
  destruct (IHr (Datatypes.S i) s1 (bwd c ++ before) F2 (Forall_inv_tail IH)) as (s2 & ->). cbn [bindr]. eauto.
Qed.
End Same.

(** ** Doing it again *)
Definition has_duration (k : kind) (d : list dnode) : Prop := is_durable k = true -> is_skip k = false -> d <> [].
(** explicit() again, in any selection of any document. *)
Theorem C123_explicit_again : forall inr t t', explicit inr t = Ok t' -> explicit inr t' = Ok t'.
Proof.
  intros inr t t' E. unfold explicit in *.
  destruct (edit p_explicit inr None t) as [[s t1]|] eqn:ED; cbn [bindr] in E; [|discriminate]. injection E as <-.
  unfold edit in *. set (inr' := fun p => match p with [] => false | _ => inr p end) in *.
  assert (F : fine has_duration inr' [] t1).
  { refine (visit_fine p_explicit has_duration inr' _ t [] None [] None s t1 ED).
    intros right before [k b d kids] st st' d' G D SK. cbn [kind_of] in *. unfold p_explicit, on_durables, yielded in G. cbn [kind_of durs_of] in G.
    rewrite D, SK in G. cbn [andb negb] in G. destruct d; injection G as _ <-; discriminate. }
  destruct (visit_same p_explicit has_duration inr' (fun right before n st G => ltac:(
    destruct n as [k b d kids]; unfold p_explicit, on_durables, yielded, has_duration in *; cbn [kind_of durs_of] in *;
    destruct (is_durable k); [|cbn [andb]; eauto]; destruct (is_skip k), d; cbn [andb negb]; eauto; exfalso; apply G; reflexivity)) t1 [] None [] None F) as (s' & ->).
  reflexivity.
Qed.
Print Assumptions C123_explicit_again.

Lemma run_fix {S} (g : iprocess S) l : Forall (fun x => i_sel x = true -> forall last st, g last x st = Ok (st, i_durs x)) l -> forall last st, run g last st l = Ok (st, l).
Proof.
  induction 1 as [|x r H F IH]; intros last st; [reflexivity|]. cbn [run].
  assert ((if i_sel x then g last x st else Ok (st, i_durs x)) = Ok (st, i_durs x)) as -> by (destruct (i_sel x); auto).
  cbn [bindr]. rewrite with_same, IH. reflexivity.
Qed.
Lemma quiet x : sounds x = false -> i_durs x = [].
Proof. unfold sounds. destruct (i_durs x); [reflexivity|]. rewrite andb_false_r. discriminate. Qed.

Ltac snd_ := match goal with |- context [sounds ?a] => destruct (sounds a) end.

(** remove() again. *)
Theorem C123_remove_again : forall inr t t', Forall one_duration (document inr t) -> remove inr t = Ok t' -> remove inr t' = Ok t'.
Proof.
  intros inr t t' P E. unfold remove in *. pose proof (remove_run inr t) as R.
  destruct (edit p_remove inr tt t) as [[s t1]|] eqn:ED; cbn [bindr] in E; [|discriminate]. injection E as <-. destruct R as [B R].
  assert (F : Forall (fun x => i_sel x = true -> forall last st, g_remove last x st = Ok (st, i_durs x)) (document inr t1)).
  { apply Forall2_only with (a := document inr t).
    refine (Forall2_weak _ _ _ _ _ (Forall2_left _ _ _ _ P (run_each g_remove (fun x y => one_duration x -> i_sel y = true -> forall last st, g_remove last y st = Ok (st, i_durs y)) _ _ _ _ _ _ _ R))).
    - intros x y [O H]. exact (H O).
    - intros last x st st' d SX G O _ last' st2. unfold g_remove, on in G |- *. destruct (sounds x) eqn:SO.
      + injection G as _ <-. destruct (i_free x) eqn:FR.
        * rewrite (single x O). cbn. rewrite FR. snd_; reflexivity.
        * cbn. rewrite FR. snd_; reflexivity.
      + injection G as _ <-. rewrite with_same, SO. reflexivity.
    - intros x U _ U2. congruence. }
  pose proof (remove_run inr t1) as R2. rewrite (run_fix _ _ F) in R2.
  destruct (edit p_remove inr tt t1) as [[s2 t2]|]; [|discriminate]. destruct R2 as [B2 R2]. cbn [bindr]. f_equal.
  injection R2 as _ R2. eapply flat_inj; [exact B2|]. symmetry. exact R2.
Qed.
Print Assumptions C123_remove_again.

(** remove_scaling() and remove_fraction_scaling() again. *)
Theorem C123_remove_scaling_again : forall inr t t', Forall plain (document inr t) -> remove_scaling inr t = Ok t' -> remove_scaling inr t' = Ok t'.
Proof.
  intros inr t t' P E. unfold remove_scaling in *. pose proof (remove_scaling_run inr t) as R.
  destruct (edit p_remove_scaling inr tt t) as [[s t1]|] eqn:ED; cbn [bindr] in E; [|discriminate]. injection E as <-. destruct R as [B R].
  assert (F : Forall (fun x => i_sel x = true -> forall last st, g_remove_scaling last x st = Ok (st, i_durs x)) (document inr t1)).
  { apply Forall2_only with (a := document inr t).
    refine (Forall2_weak _ _ _ _ _ (Forall2_left _ _ _ _ P (run_each g_remove_scaling (fun x y => plain x -> i_sel y = true -> forall last st, g_remove_scaling last y st = Ok (st, i_durs y)) _ _ _ _ _ _ _ R))).
    - intros x y [O H]. exact (H O).
    - intros last x st st' d SX G [O1 O2] _ last' st2. unfold g_remove_scaling, on in G |- *. destruct (sounds x) eqn:SO.
      + destruct (i_durs x) as [|[h ss] [|? ?]]; [| |cbn in O1; lia].
        * cbn in G. injection G as _ <-. cbn. snd_; reflexivity.
        * pose proof (Forall_inv O2) as OS. cbn [snd] in OS. destruct ss as [|s0 [|]]; [| |cbn in OS; lia]; cbn in G; injection G as _ <-; cbn; snd_; reflexivity.
      + injection G as _ <-. rewrite with_same, SO. reflexivity.
    - intros x U _ U2. congruence. }
  pose proof (remove_scaling_run inr t1) as R2. rewrite (run_fix _ _ F) in R2.
  destruct (edit p_remove_scaling inr tt t1) as [[s2 t2]|]; [|discriminate]. destruct R2 as [B2 R2]. cbn [bindr]. f_equal.
  injection R2 as _ R2. eapply flat_inj; [exact B2|]. symmetry. exact R2.
Qed.
Print Assumptions C123_remove_scaling_again.

Theorem C123_remove_fraction_scaling_again : forall inr t t', Forall plain (document inr t) -> remove_fraction_scaling inr t = Ok t' -> remove_fraction_scaling inr t' = Ok t'.
Proof.
  intros inr t t' P E. unfold remove_fraction_scaling in *. pose proof (remove_fraction_scaling_run inr t) as R.
  destruct (edit p_remove_fraction_scaling inr tt t) as [[s t1]|] eqn:ED; cbn [bindr] in E; [|discriminate]. injection E as <-. destruct R as [B R].
  assert (F : Forall (fun x => i_sel x = true -> forall last st, g_remove_fraction_scaling last x st = Ok (st, i_durs x)) (document inr t1)).
  { apply Forall2_only with (a := document inr t).
    refine (Forall2_weak _ _ _ _ _ (Forall2_left _ _ _ _ P (run_each g_remove_fraction_scaling (fun x y => plain x -> i_sel y = true -> forall last st, g_remove_fraction_scaling last y st = Ok (st, i_durs y)) _ _ _ _ _ _ _ R))).
    - intros x y [O H]. exact (H O).
    - intros last x st st' d SX G [O1 O2] _ last' st2. unfold g_remove_fraction_scaling, on in G |- *. destruct (sounds x) eqn:SO.
      + destruct (scaling (i_durs x)) as [q|] eqn:SC.
        * destruct (negb (Qeq_bool (inject_Z (Z.quot (Qnum q) (Zpos (Qden q)))) q)) eqn:NQ.
          -- destruct (i_durs x) as [|[h ss] [|? ?]]; [discriminate| |cbn in O1; lia].
             pose proof (Forall_inv O2) as OS. cbn [snd] in OS. destruct ss as [|s0 [|]]; [| |cbn in OS; lia]; cbn in G; injection G as _ <-; cbn; snd_; reflexivity.
          -- injection G as _ <-. rewrite with_same, SO, SC, NQ. reflexivity.
        * injection G as _ <-. rewrite with_same, SO, SC. reflexivity.
      + injection G as _ <-. rewrite with_same, SO. reflexivity.
    - intros x U _ U2. congruence. }
  pose proof (remove_fraction_scaling_run inr t1) as R2. rewrite (run_fix _ _ F) in R2.
  destruct (edit p_remove_fraction_scaling inr tt t1) as [[s2 t2]|]; [|discriminate]. destruct R2 as [B2 R2]. cbn [bindr]. f_equal.
  injection R2 as _ R2. eapply flat_inj; [exact B2|]. symmetry. exact R2.
Qed.
Print Assumptions C123_remove_fraction_scaling_again.

Lemma tidy_lines_run l : forall last st, tidy_lines st l -> exists st', run g_implicit_line last st l = Ok (st', l).
Proof.
  induction l as [|x r IH]; intros last st; cbn [run tidy_lines]; [eauto|]. intros [T1 T2].
  assert (G : (if i_sel x then g_implicit_line last x st else Ok (st, i_durs x)) =
    Ok (if i_sel x && sets_previous (i_kind x) then match written x with Some d => Some (d, i_blk x) | None => st end else st, i_durs x)).
  { destruct (i_sel x); cbn [andb]; [|reflexivity]. specialize (T1 eq_refl). unfold g_implicit_line, on. destruct (sounds x) eqn:SO.
    - destruct (written x) as [dur|] eqn:W.
      + match goal with |- context [if ?c && i_free x then _ else _] => destruct (c && i_free x) eqn:E end; [|destruct (sets_previous (i_kind x)); reflexivity].
        exfalso. apply andb_prop in E. destruct E as [E FR]. destruct st as [[p b]|]; [|discriminate]. apply andb_prop in E. destruct E as [E1 E2].
        apply dur_eqb_same in E1. apply blk_eqb_eq in E2. exact (T1 p b eq_refl FR E1 (eq_sym E2)).
      + assert (A : (match i_blk x, st with
          | Some _, Some (p, b) => if negb (blk_eqb b (i_blk x)) then let! d := set_duration_scaling (Some p) (i_durs x) in Ok (Some (p, i_blk x), d) else Ok (st, i_durs x)
          | _, _ => Ok (st, i_durs x) end) = Ok (st, i_durs x)).
        { destruct (i_blk x) as [bx|] eqn:BX; [|reflexivity]. destruct st as [[p b]|]; [|reflexivity].
          rewrite (T1 p b eq_refl eq_refl ltac:(discriminate)). assert (blk_eqb (Some bx) (Some bx) = true) as -> by (apply blk_eqb_eq; reflexivity). reflexivity. }
        destruct (sets_previous (i_kind x)); exact A.
    - destruct (sets_previous (i_kind x)) eqn:SP; [apply sets_sounds in SP; congruence|reflexivity]. }
  rewrite G. cbn [bindr]. rewrite with_same. destruct (IH (step last x) _ T2) as (s & ->). cbn [bindr]. eauto.
Qed.
(** implicit() again, also per line. *)
Theorem C123_implicit_again : forall inr per_line t t', contiguous (document inr t) -> Forall one_duration (document inr t) ->
  implicit inr per_line t = Ok t' -> implicit inr per_line t' = Ok t'.
Proof.
  intros inr [|] t t' C P E.
  - destruct (C61_implicit_per_line inr t C P) as (t1 & E1 & _ & _ & _ & TI & _). rewrite E in E1. injection E1 as <-.
    unfold implicit in *. destruct (tidy_lines_run _ None _ TI) as (s2 & R2). pose proof (implicit_line_run inr t') as R3.
    destruct (edit p_implicit_line inr None t') as [[s3 t2]|e]; [|congruence]. destruct R3 as [B3 R3]. cbn [bindr]. f_equal. rewrite R2 in R3. injection R3 as _ R3.
    eapply flat_inj; [exact B3|]. symmetry. exact R3.
  - destruct (C61_implicit inr t C P) as (t1 & E1 & _ & _ & _ & _ & A). rewrite E in E1. injection E1 as <-. exact A.
Qed.
Print Assumptions C123_implicit_again.

(** ** One after another *)
Definition less (x y : item) : Prop := same_place x y /\ Rhythm_Spec.untouched x y.
Lemma less_still l l' : Forall2 less l l' -> Forall (fun x => i_sel x = false /\ i_durs x = []) l -> Forall (fun x => i_sel x = false /\ i_durs x = []) l'.
Proof. induction 1 as [|x y l l' [S U] F IH]; intros G; inversion G as [|? ? [G1 G2] G3]; subst; constructor; auto. rewrite <- (U G1). auto. Qed.
Lemma Forall2_split {A B} (R : A -> B -> Prop) a b c d : length a = length c -> Forall2 R (a ++ b) (c ++ d) -> Forall2 R a c /\ Forall2 R b d.
Proof.
  revert c. induction a as [|x a IH]; intros [|y c] L F; try discriminate; cbn [app] in F; [auto|]. inversion F; subst. destruct (IH c ltac:(cbn in L; lia) H4). auto.
Qed.
Lemma outside_less inr n : forall path right n' right', bare n' = bare n -> Forall2 less (durables inr path right n) (durables inr path right' n') -> outside_ok inr path n -> outside_ok inr path n'.
Proof.
  induction n as [k b d kids IH] using rn_ind2. intros path right [k' b' d' kids'] right' B F. cbn [bare] in B. injection B as -> _ _ BK.
  rewrite !durables_eq in F. apply Forall2_split in F; [|destruct (is_durable k); reflexivity]. destruct F as [F1 F2].
  rewrite !ok_eq. intros [O K]. split.
  - intros IN SP N. apply (less_still _ _ F2). apply O; [exact IN|exact SP|]. unfold sets_previous in SP. destruct (is_durable k); [|discriminate].
    inversion F1 as [|? ? ? ? [_ L1] _]; subst. unfold Rhythm_Spec.untouched in L1. cbn [i_sel i_durs] in L1. specialize (L1 IN). injection L1 as L1 L2. subst d'. exact N.
  - clear O F1. revert kids' BK F2 K IH. generalize 0. induction kids as [|c r IHr]; intros i [|c' r'] BK F2 K IH; try discriminate; [exact Logic.I|].
    cbn [map] in BK. injection BK as BC BR. cbn [flats] in F2. apply Forall2_split in F2; [|apply flat_length; symmetry; exact BC]. destruct F2 as [FC FR].
    cbn [oks] in *. destruct K as [K1 K2]. split; [exact (Forall_inv IH _ _ _ _ BC FC K1)|exact (IHr (S i) r' BR FR K2 (Forall_inv_tail IH))].
Qed.

Lemma written_effective l2 l3 : forall p p', Forall2 (fun x y => x = y \/ (i_durs x <> [] /\ i_durs y <> [])) l2 l3 ->
  Forall2 same (effective p l2) (effective p' l3) -> Forall2 same_written l2 l3.
Proof.
  intros p p' F. revert p p'. induction F as [|x y l2 l3 H F IH]; intros p p' E; cbn [effective] in E; [constructor|].
  inversion E as [|? ? ? ? E1 E2]; subst. constructor; [|exact (IH _ _ E2)].
  unfold same_written. destruct H as [->|[N1 N2]].
  - destruct (written y) as [q|]; [split; reflexivity|exact Logic.I].
  - unfold now, written in *. destruct (i_durs x); [contradiction|]. destruct (i_durs y); [contradiction|]. exact E1.
Qed.

Lemma skips_fixed inr n : forall path right, Forall (fun x => i_kind x = KSkip -> i_free x = false) (durables inr path right n).
Proof.
  induction n as [k b d kids IH] using rn_ind2. intros path right. rewrite durables_eq. apply Forall_app. split.
  - destruct (is_durable k); repeat constructor. cbn [i_kind i_free]. intros ->. reflexivity.
  - revert IH. generalize 0. induction kids as [|c r IHr]; intros i IH; [constructor|]. cbn [flats]. apply Forall_app. split; [apply (Forall_inv IH)|apply IHr; apply (Forall_inv_tail IH)].
Qed.
Lemma implicit_skips inr per_line t t1 : implicit inr per_line t = Ok t1 -> Forall2 (fun x y => i_kind x = KSkip -> y = x) (document inr t) (document inr t1).
Proof.
  intros E. assert (F : Forall2 (fun x y => (i_kind x = KSkip -> i_free x = false) -> i_kind x = KSkip -> y = x) (document inr t) (document inr t1)).
  { unfold implicit in E. destruct per_line.
    - pose proof (implicit_line_run inr t) as R. destruct (edit p_implicit_line inr None t) as [[s t2]|]; cbn [bindr] in E; [|discriminate]. injection E as <-. destruct R as [_ R].
      eapply run_each; [| |exact R]; [|auto]. intros last x st st' d SX G FR K. specialize (FR K). unfold g_implicit_line, on in G. rewrite FR in G.
      destruct (sounds x) eqn:SO; [|injection G as _ <-; apply with_same].
      destruct (written x) eqn:W; [rewrite andb_false_r in G; destruct (sets_previous (i_kind x)); injection G as _ <-; apply with_same|].
      unfold sounds in SO. rewrite K in SO. unfold written in W. destruct (i_durs x); [discriminate SO|discriminate W].
    - pose proof (implicit_run inr t) as R. destruct (edit p_implicit inr None t) as [[s t2]|]; cbn [bindr] in E; [|discriminate]. injection E as <-. destruct R as [_ R].
      eapply run_each; [| |exact R]; [|auto]. intros last x st st' d SX G FR K. specialize (FR K). unfold g_implicit, on in G. rewrite FR in G.
      destruct (sounds x); [|injection G as _ <-; apply with_same]. destruct (written x); [|injection G as _ <-; apply with_same]. rewrite andb_false_r in G.
      destruct (sets_previous (i_kind x)); injection G as _ <-; apply with_same. }
  refine (Forall2_weak _ _ _ _ _ (Forall2_left _ _ _ _ (skips_fixed _ t [] None) F)). intros x y [A B]. exact (B A).
Qed.
Lemma same_trans a b c : same a b -> same b c -> same a c.
Proof. intros [A B] [C D]. split; etransitivity; eauto. Qed.
Lemma same_sym a b : same a b -> same b a.
Proof. intros [A B]. split; symmetry; assumption. Qed.
Lemma contiguous_less l l' : Forall2 less l l' -> contiguous l -> contiguous l'.
Proof.
  intros F (a & b & c & -> & UA & SB & UC).
  apply Forall2_app_inv_l in F. destruct F as (a' & m & FA & F & ->). apply Forall2_app_inv_l in F. destruct F as (b' & c' & FB & FC & ->).
  assert (K : forall v l l', Forall2 less l l' -> Forall (fun x => i_sel x = v) l -> Forall (fun x => i_sel x = v) l').
  { clear. intros v l l'. induction 1 as [|x y l l' [(S & _) _] F IH]; intros G; inversion G; subst; constructor; auto. }
  exists a', b', c'. split; [reflexivity|]. split; [exact (K false _ _ FA UA)|]. split; [exact (K true _ _ FB SB)|exact (K false _ _ FC UC)].
Qed.

(** implicit(), whether per line or not, and then explicit(), gives the same document as explicit() alone. *)
Theorem C123_implicit_explicit : forall inr per_line t, starts_outside_chords inr t -> contiguous (document inr t) -> Forall one_duration (document inr t) ->
  exists t1 t2 t3, implicit inr per_line t = Ok t1 /\ explicit inr t1 = Ok t2 /\ explicit inr t = Ok t3 /\
    bare t2 = bare t3 /\ Forall2 same_written (document inr t2) (document inr t3).
Proof.
  intros inr per_line t O C P.
  assert (I : exists t1, implicit inr per_line t = Ok t1 /\ only_durations inr t t1 /\ Forall2 same (effective quarter (document inr t)) (effective quarter (document inr t1))).
  { destruct per_line.
    - destruct (C61_implicit_per_line inr t C P) as (t1 & E & D & S & _). eauto.
    - destruct (C61_implicit inr t C P) as (t1 & E & D & S & _). eauto. }
  destruct I as (t1 & E1 & [B1 D1] & S1). pose proof (implicit_skips _ _ _ _ E1) as K1.
  assert (O1 : starts_outside_chords inr t1) by (exact (outside_less _ t [] None t1 None B1 D1 O)).
  destruct (C60_explicit inr t1 O1 (contiguous_less _ _ D1 C)) as (t2 & E2 & [B2 D2] & S2 & K2 & H2).
  destruct (C60_explicit inr t O C) as (t3 & E3 & [B3 D3] & S3 & K3 & H3).
  exists t1, t2, t3. repeat (split; [assumption|]). split; [congruence|].
  apply written_effective with (p := quarter) (p' := quarter).
  - pose proof (Forall2_comp _ _ _ _ (Forall2_and _ _ _ _ D1 K1) _ (Forall2_right _ _ _ _ H2 (Forall2_and _ _ _ _ D2 K2))) as A.
    pose proof (Forall2_comp _ _ _ _ (Forall2_back _ _ _ A) _ (Forall2_right _ _ _ _ H3 (Forall2_and _ _ _ _ D3 K3))) as F.
    refine (Forall2_weak _ _ _ _ _ F). clear. intros z2 z3 (x & (y & ([(SA & SK & _) UA] & KA) & ([(TA & TK & _) UB] & KB) & HB) & ([(VA & VK & _) UC] & KC) & HC).
    unfold Rhythm_Spec.untouched in *. destruct (i_sel x) eqn:SX.
    + assert (DEC : i_kind x = KSkip \/ i_kind x <> KSkip) by (destruct (i_kind x); auto; right; discriminate).
      destruct DEC as [K|K].
      * left. rewrite (KC (or_intror K)). specialize (KA K). subst y. rewrite (KB (or_intror K)). reflexivity.
      * right. split; [apply HB; congruence|apply HC; congruence].
    + left. rewrite <- (UC eq_refl), (UA eq_refl). symmetry. apply UB. congruence.
  - refine (Forall2_weak _ _ _ _ _ (Forall2_comp _ _ _ _ (Forall2_back _ _ _ (Forall2_comp _ _ _ _ S1 _ S2)) _ S3)).
    intros a c (b & (d & H1 & H2') & H3'). exact (same_trans _ _ _ (same_sym _ _ (same_trans _ _ _ H1 H2')) H3').
Qed.
Print Assumptions C123_implicit_explicit.

(** ** There and back *)
(** The same document, with equal numbers. *)
Definition alike_durations (a b : list dnode) : Prop :=
  match a, b with
  | [], [] => True
  | d :: r, e :: r' => same (dur_value d) (dur_value e) /\ r = r'
  | _, _ => False
  end.
Inductive alike : rn -> rn -> Prop :=
| alike_node k b d d' kids kids' : alike_durations d d' -> Forall2 alike kids kids' -> alike (RN k b d kids) (RN k b d' kids').
(** A duration that can be written, with at most 52 dots, also when [n] is added to its log; -3 is a \maxima. *)
Definition notated (n : Z) (v : Q) : Prop := exists l d, (0 <= d <= 52 /\ v == dotted l d /\ 0 <= d + l + 3 /\ 0 <= d + (l + n) + 3)%Z%Q.

Lemma set_ds h ss r d s : length ss <= 1 -> exists ss', set_duration_scaling (Some (d, s)) ((h, ss) :: r) = Ok ((d, ss') :: r) /\ length ss' <= 1 /\ (fold_left Qmult ss' 1 == s)%Q.
Proof.
  intros L. unfold set_duration_scaling, set_duration, set_scaling, one_or_none.
  destruct ss as [|s0 [|? ?]]; [| |cbn in L; lia]; destruct (Qeq_bool s 1) eqn:E; cbn [remove_all]; eexists; (split; [reflexivity|]); (split; [cbn; lia|]);
    try (apply Qeq_bool_iff in E; rewrite E); cbn; try reflexivity; apply Qmult_1_l.
Qed.
Lemma apply_there n s v c : notated n v -> exists w, transform_apply (Transform n 0 s) v c = Ok (w, c * s)%Q /\
  forall s' c', exists w', transform_apply (Transform (- n) 0 s') w c' = Ok (w', c' * s')%Q /\ (w' == v)%Q.
Proof.
  intros (l & d & D & V & G1 & G2). unfold transform_apply. cbn [t_log t_dotcount t_scale]. rewrite Z.eqb_refl. cbn [negb]. rewrite !orb_false_r.
  destruct (Z.eqb_spec n 0) as [->|N]; cbn [negb].
  - exists v. split; [reflexivity|]. intros. exists v. split; reflexivity.
  - destruct (shift_value v l d n 0 D V) as (w & W1 & W2); [lia|]. rewrite W1. cbn [bindr]. exists w. split; [reflexivity|]. intros s' c'.
    destruct (Z.eqb_spec (- n) 0) as [N0|_]; [lia|]. cbn [negb].
    rewrite Z.add_0_r, Z.max_r in W2 by lia. destruct (shift_value w (l + n) d (- n) 0 D W2) as (w' & W3 & W4); [lia|]. rewrite W3. cbn [bindr]. exists w'. split; [reflexivity|].
    rewrite W4, V, Z.add_0_r, Z.max_r by lia. replace (l + n + - n)%Z with l by lia. reflexivity.
Qed.
Lemma node_back n s right before k b durs kids : ~ (s == 0)%Q -> Forall (fun d => length (snd d) <= 1) durs ->
  (handles k = true -> forall v c, duration_scaling durs = Some (v, c) -> notated n v) ->
  exists d1 d2, p_transform (Transform n 0 s) right before (RN k b durs kids) tt = Ok (tt, d1) /\
    (forall right' before' kids', p_transform (Transform (- n) 0 (/ s)) right' before' (RN k b d1 kids') tt = Ok (tt, d2)) /\ alike_durations durs d2.
Proof.
  intros NZ P NO. unfold p_transform. cbn [kind_of durs_of].
  assert (SELF : forall durs, alike_durations durs durs) by (intros [|? ?]; [exact Logic.I|split; [split; reflexivity|reflexivity]]).
  destruct (handles k); [|exists durs, durs; auto]. destruct durs as [|[h ss] r]; [exists [], []; auto|].
  cbn [duration_scaling] in *. unfold dur_value in NO |- *. cbn [fst snd] in *. pose proof (Forall_inv P) as LS. cbn [snd] in LS.
  destruct (apply_there n s h (fold_left Qmult ss 1%Q) (NO eq_refl _ _ eq_refl)) as (w & A1 & A2). rewrite A1. cbn [bindr].
  assert (K : k = KTempo \/ k <> KTempo) by (destruct k; auto; right; discriminate). destruct K as [->|K].
  - destruct (A2 (/ s)%Q (fold_left Qmult ss 1%Q)) as (w' & A3 & A4). exists ((w, ss) :: r), ((w', ss) :: r). cbn [set_duration]. split; [reflexivity|]. split.
    + intros _ _ _. unfold duration_scaling, dur_value. cbn [fst snd]. rewrite A3. reflexivity.
    + split; [|reflexivity]. split; cbn; [symmetry; exact A4|reflexivity].
  - destruct (set_ds h ss r w (fold_left Qmult ss 1%Q * s)%Q LS) as (ss1 & E1 & L1 & F1). destruct (A2 (/ s)%Q (fold_left Qmult ss1 1%Q)) as (w' & A3 & A4).
    destruct (set_ds w ss1 r w' (fold_left Qmult ss1 1 * / s)%Q L1) as (ss2 & E2 & L2 & F2).
    exists ((w, ss1) :: r), ((w', ss2) :: r).
    assert (KK : forall A (a b : A), match k with KTempo => a | _ => b end = b) by (intros; destruct k; auto; contradiction).
    rewrite !KK, E1. cbn [bindr]. split; [reflexivity|]. split.
    + intros _ _ _. unfold duration_scaling, dur_value. cbn [fst snd]. rewrite A3. cbn [bindr]. rewrite !KK, E2. reflexivity.
    + split; [|reflexivity]. split; cbn [dur_value fst snd]; [symmetry; exact A4|]. rewrite F2, F1. field. exact NZ.
Qed.

Lemma visit_back n s inr t : ~ (s == 0)%Q -> (forall path m d, node_at t path = Some m -> In d (durs_of m) -> length (snd d) <= 1) ->
  (forall path m v c, node_at t path = Some m -> handles (kind_of m) = true -> duration_scaling (durs_of m) = Some (v, c) -> notated n v) ->
  forall path right before, exists t1 t2, visit (p_transform (Transform n 0 s)) inr path right before tt t = Ok (tt, t1) /\
    (forall right' before', visit (p_transform (Transform (- n) 0 (/ s))) inr path right' before' tt t1 = Ok (tt, t2)) /\ alike t t2.
Proof.
  intros NZ. induction t as [k b durs kids IH] using rn_ind2. intros ONE NO path right before.
  destruct (node_back n s right before k b durs kids NZ) as (d1 & d2 & N1 & N2 & N3).
  { apply Forall_forall. intros d I. exact (ONE [] (RN k b durs kids) d eq_refl I). }
  { intros H v c D. exact (NO [] (RN k b durs kids) v c eq_refl H D). }
  assert (KIDS : forall i before, exists k1 k2, visits (p_transform (Transform n 0 s)) inr path i before tt kids = Ok (tt, k1) /\
     (forall before', visits (p_transform (Transform (- n) 0 (/ s))) inr path i before' tt k1 = Ok (tt, k2)) /\ Forall2 alike kids k2).
  { assert (ONEK : forall i c, nth_error kids i = Some c -> forall path m d, node_at c path = Some m -> In d (durs_of m) -> length (snd d) <= 1).
    { intros i c N p m d A I. apply (ONE (i :: p) m d); [cbn [node_at kids_of]; rewrite N; exact A|exact I]. }
    assert (NOK : forall i c, nth_error kids i = Some c -> forall path m v e, node_at c path = Some m -> handles (kind_of m) = true -> duration_scaling (durs_of m) = Some (v, e) -> notated n v).
    { intros i c N p m v e A. apply (NO (i :: p) m v e). cbn [node_at kids_of]. rewrite N. exact A. }
    clear ONE NO N1 N2 N3. induction kids as [|c r IHr]; intros i bf; cbn [visits].
    - exists [], []. split; [reflexivity|]. split; [reflexivity|constructor].
    - destruct (Forall_inv IH (ONEK 0 c eq_refl) (NOK 0 c eq_refl) (path ++ [i]) (hd_error r) bf) as (c1 & c2 & V1 & V2 & V3). rewrite V1. cbn [bindr].
      destruct (IHr (Forall_inv_tail IH) (fun j => ONEK (S j)) (fun j => NOK (S j)) (S i) (bwd c1 ++ bf)) as (r1 & r2 & W1 & W2 & W3). rewrite W1. cbn [bindr].
      exists (c1 :: r1), (c2 :: r2). split; [reflexivity|]. split; [|constructor; assumption].
      intros bf'. cbn [visits]. rewrite V2. cbn [bindr]. rewrite W2. reflexivity. }
  destruct (KIDS 0 before) as (k1 & k2 & V1 & V2 & V3).
  destruct (inr path) eqn:IN.
  - exists (RN k b d1 k1), (RN k b d2 k2). rewrite visit_eq, IN, N1. cbn [bindr]. rewrite V1. cbn [bindr]. split; [reflexivity|]. split; [|constructor; assumption].
    intros right' before'. rewrite visit_eq, IN, N2. cbn [bindr]. rewrite V2. reflexivity.
  - exists (RN k b durs k1), (RN k b durs k2). rewrite visit_eq, IN. cbn [bindr]. rewrite V1. cbn [bindr]. split; [reflexivity|]. split.
    + intros right' before'. rewrite visit_eq, IN. cbn [bindr]. rewrite V2. reflexivity.
    + constructor; [|exact V3]. destruct durs; [exact Logic.I|]. split; [split; reflexivity|reflexivity].
Qed.

(** transform() and then transform() with the opposite log and the inverse scale restores the document: so doubling undoes halving. *)
Theorem C123_transform_back : forall inr n s t, ~ (s == 0)%Q -> one_scaling t ->
  (forall path m v c, node_at t path = Some m -> handles (kind_of m) = true -> duration_scaling (durs_of m) = Some (v, c) -> notated n v) ->
  exists t1 t2, rtransform inr (Transform n 0 s) t = Ok t1 /\ rtransform inr (Transform (- n) 0 (/ s)) t1 = Ok t2 /\ alike t t2.
Proof.
  intros inr n s t NZ ONE NO. unfold rtransform, edit.
  destruct (visit_back n s (fun p => match p with [] => false | _ => inr p end) t NZ ONE NO [] None []) as (t1 & t2 & V1 & V2 & V3).
  exists t1, t2. rewrite V1, V2. cbn [bindr]. auto.
Qed.
Print Assumptions C123_transform_back.

(** ** Cases *)
Lemma doc_notated path m v c : node_at doc path = Some m -> handles (kind_of m) = true -> duration_scaling (durs_of m) = Some (v, c) -> notated 1 v.
Proof.
  intros N _ D.
  assert (A : forall n, (fix all (n : rn) : bool := match n with RN _ _ d kids => forallb (fun e => Qeq_bool (fst e) (1 # 4) || Qeq_bool (fst e) (1 # 8) || Qeq_bool (fst e) (1 # 2)) d && forallb all kids end) n = true ->
    forall p m, node_at n p = Some m -> forallb (fun e => Qeq_bool (fst e) (1 # 4) || Qeq_bool (fst e) (1 # 8) || Qeq_bool (fst e) (1 # 2)) (durs_of m) = true).
  { clear. intros n H p. revert n H. induction p as [|i p IH]; intros [k b d kids] H m; cbn [node_at kids_of]; apply andb_prop in H; destruct H as [H1 H2].
    - intros [= <-]. exact H1.
    - destruct (nth_error kids i) as [c|] eqn:E; [|discriminate]. apply IH. rewrite forallb_forall in H2. apply H2. eapply nth_error_In. exact E. }
  pose proof (A doc eq_refl path m N) as B. destruct (durs_of m) as [|[h ss] r]; [discriminate|]. cbn in D. injection D as <- _.
  cbn [forallb fst] in B. apply andb_prop in B. destruct B as [B _]. apply orb_prop in B. destruct B as [B|B]; [apply orb_prop in B; destruct B as [B|B]|]; apply Qeq_bool_iff in B.
  - exists 2%Z, 0%Z. split; [lia|]. split; [rewrite B; vm_compute; reflexivity|lia].
  - exists 3%Z, 0%Z. split; [lia|]. split; [rewrite B; vm_compute; reflexivity|lia].
  - exists 1%Z, 0%Z. split; [lia|]. split; [rewrite B; vm_compute; reflexivity|lia].
Qed.
(** The document of the other rhythm properties meets all hypotheses; what the edits make of it is not what it was. *)
Example C123_witness : starts_outside_chords part doc /\ contiguous (document part doc) /\ Forall plain (document part doc) /\ Forall one_duration (document part doc) /\
  one_scaling doc /\ (forall path m v c, node_at doc path = Some m -> handles (kind_of m) = true -> duration_scaling (durs_of m) = Some (v, c) -> notated 1 v) /\
  (exists t, explicit part doc = Ok t /\ t <> doc) /\ (exists t, remove part doc = Ok t /\ t <> doc) /\
  (exists t, rtransform part (Transform 1 0 (2 # 3)) doc = Ok t /\ t <> doc) /\
  (exists t, implicit (fun _ => true) true doc = Ok t /\ t <> doc).
Proof.
  split; [exact doc_outside|]. split; [exact doc_contiguous|]. split; [exact doc_plain|].
  split; [pose proof doc_plain as P; revert P; apply Forall_impl; intros x [L _]; exact L|]. split; [exact doc_one|]. split; [exact doc_notated|].
  repeat split; eexists; (split; [vm_compute; reflexivity|intros E; vm_compute in E; discriminate]).
Qed.
(** Finding: removing a dot and adding one does not restore the document: a note without dots gets one. *)
Theorem C123_dots_finding : exists t1 t2, rtransform (fun _ => true) (Transform 0 (-1) 1) (seq [nt [q4]]) = Ok t1 /\ rtransform (fun _ => true) (Transform 0 1 1) t1 = Ok t2 /\
  ~ alike (seq [nt [q4]]) t2.
Proof.
  eexists; eexists. split; [vm_compute; reflexivity|]. split; [vm_compute; reflexivity|].
  intros A. inversion A as [? ? ? ? ? ? _ F]; subst. inversion F as [|? ? ? ? A1 _]; subst. inversion A1 as [? ? ? ? ? ? _ F1]; subst. inversion F1 as [|? ? ? ? A2 _]; subst.
  inversion A2 as [? ? ? ? ? ? D _]; subst. destruct D as [[D _] _]. vm_compute in D. discriminate.
Qed.
Print Assumptions C123_dots_finding.
