(** The edits on lists of durables. *)
From Coq Require Import List ZArith QArith Bool Lia.
From Verif Require Import Base Duration_Model Rhythm_Model Rhythm_Spec Rhythm_Proofs.
Import ListNotations.
Open Scope nat_scope.

Definition on {S} (g : iprocess S) : iprocess S := fun last x st => if sounds x then g last x st else Ok (st, i_durs x).
Definition odef (l : option (Q * Q)) : Q * Q := match l with Some d => d | None => quarter end.

Definition g_remove : iprocess unit := on (fun _ x st => Ok (st, if i_free x then del_duration (i_durs x) else i_durs x)).
Definition g_remove_scaling : iprocess unit := on (fun _ x st => let! d := del_scaling (i_durs x) in Ok (st, d)).
Definition g_remove_fraction_scaling : iprocess unit := on (fun _ x st =>
  match scaling (i_durs x) with
  | Some s => if negb (Qeq_bool (inject_Z (Z.quot (Qnum s) (Zpos (Qden s)))) s) then let! d := del_scaling (i_durs x) in Ok (st, d) else Ok (st, i_durs x)
  | None => Ok (st, i_durs x)
  end).
Definition g_explicit : iprocess (option dnode) := on (fun last x prev =>
  match i_durs x with
  | [] => let p := match prev with Some p => p | None => let (d, s) := odef last in from_duration d s end in Ok (Some p, [p])
  | d :: _ => Ok (if sets_previous (i_kind x) then Some d else prev, i_durs x)
  end).
Definition g_implicit : iprocess (option (Q * Q)) := on (fun _ x prev =>
  match written x with
  | Some dur =>
      if is_prev dur prev && i_free x then Ok (prev, del_duration (i_durs x))
      else if sets_previous (i_kind x) then Ok (Some dur, i_durs x)
      else Ok (prev, i_durs x)
  | None => Ok (prev, i_durs x)
  end).
Definition g_implicit_line : iprocess (option ((Q * Q) * option nat)) := on (fun _ x prev =>
  match written x with
  | Some dur =>
      if match prev with Some (p, b) => dur_eqb dur p && blk_eqb (i_blk x) b | None => false end && i_free x
      then Ok (prev, del_duration (i_durs x))
      else if sets_previous (i_kind x) then Ok (Some (dur, i_blk x), i_durs x)
      else Ok (prev, i_durs x)
  | None =>
      match i_blk x, prev with
      | Some _, Some (p, b) =>
          if negb (blk_eqb b (i_blk x)) then let! d := set_duration_scaling (Some p) (i_durs x) in Ok (Some (p, i_blk x), d)
          else Ok (prev, i_durs x)
      | _, _ => Ok (prev, i_durs x)
      end
  end).
Definition g_copy : iprocess (list (option (Q * Q))) := on (fun _ x out => Ok (out ++ [written x], i_durs x)).
Definition g_copy_explicit : iprocess (list (Q * Q) * option (Q * Q)) := on (fun last x '(out, prev) =>
  let prev := match written x with Some dur => dur | None => match prev with Some p => p | None => odef last end end in
  Ok ((out ++ [prev], Some prev), i_durs x)).
Definition g_paste (durations : list (option (Q * Q))) (cycle : bool) : iprocess (nat * option (Q * Q)) := on (fun _ x '(i, prev) =>
  match (match durations with [] => None | _ => nth_error durations (if cycle then i mod length durations else i) end) with
  | None => Ok ((i, prev), i_durs x)
  | Some (Some d) => let! l := set_duration_scaling (Some d) (i_durs x) in Ok ((S i, Some d), l)
  | Some None =>
      if i_free x then Ok ((S i, prev), del_duration (i_durs x))
      else match prev with
           | Some p => let! l := set_duration_scaling (Some p) (i_durs x) in Ok ((S i, prev), l)
           | None => Ok ((S i, prev), i_durs x)
           end
  end).

Lemma sounds_yielded r n : is_durable (kind_of n) = true -> yielded n = sounds (item_of true r n).
Proof. intros D. unfold yielded, sounds. rewrite D. reflexivity. Qed.
Lemma on_other {S} (f : process S) right before n st : is_durable (kind_of n) = false -> on_durables f right before n st = Ok (st, durs_of n).
Proof. intros D. unfold on_durables, yielded. rewrite D. reflexivity. Qed.
Lemma sets_sounds x : sets_previous (i_kind x) = true -> sounds x = true.
Proof. unfold sets_previous, sounds. destruct (is_skip (i_kind x)); [rewrite andb_false_r; discriminate|reflexivity]. Qed.

Lemma never {S} (P : Prop) : (exists s : S, (fun _ => false) s = true) -> P.
Proof. intros [s E]. discriminate. Qed.

Ltac bridge := intros; unfold on_durables, on; match goal with |- context [item_of true ?r ?n] => rewrite (sounds_yielded r n) by assumption end;
  match goal with |- (if ?a then _ else _) = _ => destruct a; [|reflexivity] end;
  rewrite ?may_remove_removable by assumption; try reflexivity.

Lemma edit_simple {S} (f : process S) (g : iprocess S) :
  (forall right before n st, is_durable (kind_of n) = true -> on_durables f right before n st = on g None (item_of true right n) st) ->
  (forall l l' x st, g l x st = g l' x st) ->
  forall inr t st, match edit (on_durables f) inr st t with
  | Ok (st', t') => bare t' = bare t /\ run (on g) None st (document inr t) = Ok (st', document inr t')
  | Err e => run (on g) None st (document inr t) = Err e
  end.
Proof.
  intros H I inr t st.
  apply edit_run with (fresh := fun _ => false).
  - intros. rewrite H by assumption. unfold on. rewrite (I (search before) None). reflexivity.
  - intros. apply on_other. assumption.
  - intros. unfold on. rewrite (I l l'). reflexivity.
  - discriminate.
  - apply never.
Qed.

Lemma remove_run inr t : match edit p_remove inr tt t with Ok (st, t') => bare t' = bare t /\ run g_remove None tt (document inr t) = Ok (st, document inr t') | Err e => run g_remove None tt (document inr t) = Err e end.
Proof. apply edit_simple; [bridge|reflexivity]. Qed.
Lemma remove_scaling_run inr t : match edit p_remove_scaling inr tt t with Ok (st, t') => bare t' = bare t /\ run g_remove_scaling None tt (document inr t) = Ok (st, document inr t') | Err e => run g_remove_scaling None tt (document inr t) = Err e end.
Proof. apply edit_simple; [bridge|reflexivity]. Qed.
Lemma remove_fraction_scaling_run inr t : match edit p_remove_fraction_scaling inr tt t with Ok (st, t') => bare t' = bare t /\ run g_remove_fraction_scaling None tt (document inr t) = Ok (st, document inr t') | Err e => run g_remove_fraction_scaling None tt (document inr t) = Err e end.
Proof. apply edit_simple; [bridge|reflexivity]. Qed.
Lemma implicit_run inr t : match edit p_implicit inr None t with Ok (st, t') => bare t' = bare t /\ run g_implicit None None (document inr t) = Ok (st, document inr t') | Err e => run g_implicit None None (document inr t) = Err e end.
Proof. apply edit_simple; [bridge|reflexivity]. Qed.
Lemma implicit_line_run inr t : match edit p_implicit_line inr None t with Ok (st, t') => bare t' = bare t /\ run g_implicit_line None None (document inr t) = Ok (st, document inr t') | Err e => run g_implicit_line None None (document inr t) = Err e end.
Proof. apply edit_simple; [bridge|reflexivity]. Qed.
Lemma copy_run inr t : match edit p_copy inr [] t with Ok (st, t') => bare t' = bare t /\ run g_copy None [] (document inr t) = Ok (st, document inr t') | Err e => run g_copy None [] (document inr t) = Err e end.
Proof. apply edit_simple; [bridge|reflexivity]. Qed.
Lemma paste_run ds cycle inr t : match edit (p_paste ds cycle) inr (0, None) t with Ok (st, t') => bare t' = bare t /\ run (g_paste ds cycle) None (0, None) (document inr t) = Ok (st, document inr t') | Err e => run (g_paste ds cycle) None (0, None) (document inr t) = Err e end.
Proof. apply edit_simple; [bridge|reflexivity]. Qed.

Lemma explicit_run inr t : starts_outside_chords inr t -> match edit p_explicit inr None t with Ok (st, t') => bare t' = bare t /\ run g_explicit None None (document inr t) = Ok (st, document inr t') | Err e => run g_explicit None None (document inr t) = Err e end.
Proof.
  intros O. apply edit_run with (fresh := fun s => match s with None => true | Some _ => false end); [unfold p_explicit, g_explicit; bridge| | | |auto].
  - intros. apply on_other. assumption.
  - intros l l' x [p|] F; [|discriminate]. reflexivity.
  - intros l x st st' d. unfold g_explicit, on. destruct (sounds x) eqn:SO.
    + destruct (i_durs x) as [|d0 dr] eqn:D.
      * intros [= <- <-]. discriminate.
      * destruct (sets_previous (i_kind x)); intros [= <- <-] F; [discriminate|]. destruct st; [discriminate|]. repeat split; auto. discriminate.
    + intros [= <- <-] F. destruct st; [discriminate|]. repeat split; auto. intros SP. apply sets_sounds in SP. congruence.
Qed.
Lemma copy_explicit_run inr t : starts_outside_chords inr t -> match edit p_copy_explicit inr ([], None) t with Ok (st, t') => bare t' = bare t /\ run g_copy_explicit None ([], None) (document inr t) = Ok (st, document inr t') | Err e => run g_copy_explicit None ([], None) (document inr t) = Err e end.
Proof.
  intros O. apply edit_run with (fresh := fun s => match snd s with None => true | Some _ => false end); [| | | |auto].
  - unfold p_copy_explicit, g_copy_explicit. bridge.
  - intros. apply on_other. assumption.
  - intros l l' x [o [p|]] F; [|discriminate]. reflexivity.
  - intros l x [o p] st' d. unfold g_copy_explicit, on. destruct (sounds x) eqn:SO.
    + intros [= <- <-]. discriminate.
    + intros [= <- <-] F. cbn in F. destruct p; [discriminate|]. repeat split; auto. intros SP. apply sets_sounds in SP. congruence.
Qed.

(** ** General facts *)
Lemma same_refl a : same a a. Proof. split; reflexivity. Qed.
Lemma same_sym a b : same a b -> same b a. Proof. intros [A B]. split; symmetry; assumption. Qed.
Lemma same_trans a b c : same a b -> same b c -> same a c.
Proof. intros [A B] [C D]. split; [rewrite A|rewrite B]; assumption. Qed.
Lemma dur_eqb_same a b : dur_eqb a b = true <-> same a b.
Proof. unfold dur_eqb, same. rewrite andb_true_iff, !Qeq_bool_iff. reflexivity. Qed.
Lemma from_duration_same d s : same (dur_value (from_duration d s)) (d, s).
Proof.
  unfold from_duration, dur_value, same. destruct (Qeq_bool s 1) eqn:E; cbn.
  - apply Qeq_bool_iff in E. split; [reflexivity|]. symmetry. exact E.
  - split; [reflexivity|]. apply Qmult_1_l.
Qed.

(** A run changes only durations. *)
Lemma run_place {S} (g : iprocess S) l : forall last st st' l', run g last st l = Ok (st', l') ->
  Forall2 (fun x y => same_place x y /\ untouched x y) l l'.
Proof.
  induction l as [|x r IH]; intros last st st' l'; cbn [run]; [intros [= <- <-]; constructor|].
  destruct (if i_sel x then g last x st else Ok (st, i_durs x)) as [[s d]|] eqn:G; cbn [bindr]; [|discriminate].
  destruct (run g (step last (with_durs x d)) s r) as [[s' r']|] eqn:R; cbn [bindr]; [|discriminate]. intros [= <- <-].
  constructor; [|eauto]. split; [repeat split|]. intros U. rewrite U in G. injection G as <- <-. symmetry. apply with_same.
Qed.
(** Every item of a run. *)
Lemma run_each {S} (g : iprocess S) (P : item -> item -> Prop) :
  (forall last x st st' d, i_sel x = true -> g last x st = Ok (st', d) -> P x (with_durs x d)) -> (forall x, i_sel x = false -> P x x) ->
  forall l last st st' l', run g last st l = Ok (st', l') -> Forall2 P l l'.
Proof.
  intros H1 H2. induction l as [|x r IH]; intros last st st' l'; cbn [run]; [intros [= <- <-]; constructor|].
  destruct (i_sel x) eqn:SX.
  - destruct (g last x st) as [[s d]|] eqn:G; cbn [bindr]; [|discriminate].
    destruct (run g (step last (with_durs x d)) s r) as [[s' r']|] eqn:R; cbn [bindr]; [|discriminate]. intros [= <- <-].
    constructor; [eapply H1; eauto|eauto].
  - cbn [bindr]. rewrite with_same. destruct (run g (step last x) st r) as [[s' r']|] eqn:R; cbn [bindr]; [|discriminate]. intros [= <- <-].
    constructor; [apply H2; exact SX|eauto].
Qed.
(** Runs that cannot fail. *)
Lemma run_total {S} (g : iprocess S) : (forall last x st, exists r, g last x st = Ok r) -> forall l last st, exists st' l', run g last st l = Ok (st', l').
Proof.
  intros H. induction l as [|x r IH]; intros last st; cbn [run]; [eauto|]. destruct (i_sel x).
  - destruct (H last x st) as ([s d] & ->). cbn [bindr]. destruct (IH (step last (with_durs x d)) s) as (s' & l' & ->). cbn [bindr]. eauto.
  - cbn [bindr]. destruct (IH (step last (with_durs x (i_durs x))) st) as (s' & l' & ->). cbn [bindr]. eauto.
Qed.

(** Effective durations in a run over a contiguous selection. *)
Lemma next_step last p x : same (odef last) p -> same (odef (step last x)) (next p x).
Proof.
  intros H. unfold step, next, now. destruct (sets_previous (i_kind x)); [|exact H]. destruct (written x); [apply same_refl|exact H].
Qed.
Lemma effective_same l : forall p q, same p q -> Forall2 same (effective p l) (effective q l).
Proof.
  induction l as [|x r IH]; intros p q H; [constructor|]. cbn [effective]. constructor.
  - unfold now. destruct (written x); [apply same_refl|exact H].
  - apply IH. unfold next, now. destruct (sets_previous (i_kind x)); [|exact H]. destruct (written x); [apply same_refl|exact H].
Qed.
Lemma effective_app a : forall p b, effective p (a ++ b) = effective p a ++ effective (fold_left next a p) b.
Proof. induction a as [|x a IH]; intros p b; [reflexivity|]. cbn [app effective fold_left]. rewrite IH. reflexivity. Qed.

Section Keep.
Context {S : Type}.
Variable g : iprocess S.
(** [I st p]: the state fits with the previous duration p. *)
Variable I : S -> Q * Q -> Prop.
Variable ok : item -> Prop.
Hypothesis keep : forall last p x st st' d, ok x -> i_sel x = true -> I st p -> same (odef last) p -> g last x st = Ok (st', d) ->
  same (now p x) (now p (with_durs x d)) /\ same (next p x) (next p (with_durs x d)) /\ I st' (next p (with_durs x d)).

Lemma run_selected l : selected l -> Forall ok l -> forall last p q st st' l', I st q -> same p q -> same (odef last) q -> run g last st l = Ok (st', l') ->
  Forall2 same (effective p l) (effective q l') /\ same (fold_left next l p) (fold_left next l' q) /\ I st' (fold_left next l' q) /\ same (odef (lasts last l')) (fold_left next l' q).
Proof.
  induction 1 as [|x r SX H IH]; intros OK last p q st st' l' HI PQ HL; cbn [run].
  - intros [= <- <-]. cbn. auto.
  - rewrite SX. destruct (g last x st) as [[s d]|] eqn:G; cbn [bindr]; [|discriminate].
    destruct (run g (step last (with_durs x d)) s r) as [[s' r']|] eqn:R; cbn [bindr]; [|discriminate]. intros [= <- <-].
    destruct (keep last q x st s d (Forall_inv OK) SX HI HL G) as (K1 & K2 & K3).
    assert (N1 : same (now p x) (now q x)). { unfold now. destruct (written x); [apply same_refl|exact PQ]. }
    assert (N2 : same (next p x) (next q x)). { unfold next. destruct (sets_previous (i_kind x)); [exact N1|exact PQ]. }
    destruct (IH (Forall_inv_tail OK) _ (next p x) (next q (with_durs x d)) _ _ _ K3 (same_trans _ _ _ N2 K2) (next_step _ _ (with_durs x d) HL) R) as (E1 & E2 & E3 & E4).
    cbn [effective fold_left]. split; [constructor; [exact (same_trans _ _ _ N1 K1)|exact E1]|]. split; [exact E2|]. split; [exact E3|]. exact E4.
Qed.

Lemma run_contiguous l st st' l' : contiguous l -> Forall ok l -> (forall p, I st p) -> run g None st l = Ok (st', l') ->
  Forall2 same (effective quarter l) (effective quarter l').
Proof.
  intros (a & b & c & -> & UA & SB & UC) OK HI. rewrite !run_app, (run_unselected _ _ UA). cbn [bindr]. rewrite run_app.
  destruct (run g (lasts None a) st b) as [[s b']|] eqn:R; cbn [bindr]; [|discriminate]. rewrite (run_unselected _ _ UC). cbn [bindr]. intros [= <- <-].
  assert (HL : forall a l p, same (odef l) p -> same (odef (lasts l a)) (fold_left next a p)).
  { clear. induction a as [|x a IH]; intros l p H; [exact H|]. unfold lasts in *. cbn [fold_left]. apply IH. apply next_step. exact H. }
  apply Forall_app in OK. destruct OK as [_ OK]. apply Forall_app in OK. destruct OK as [OK _].
  destruct (run_selected b SB OK (lasts None a) (fold_left next a quarter) (fold_left next a quarter) st s b' (HI _) (same_refl _) (HL a None quarter (same_refl _)) R) as (E1 & E2 & _ & _).
  rewrite !effective_app. apply Forall2_app; [|apply Forall2_app; [exact E1|apply effective_same; exact E2]].
  clear. generalize (effective quarter a). induction l; constructor; auto using same_refl.
Qed.
End Keep.
