(** Proofs about ranges: what is in the range. *)
From Coq Require Import List ZArith Bool PeanoNat Sorting.Sorted Lia ZifyBool ZifyNat.
From Verif Require Import Base Node_Model Node_Spec Node_Proofs Node_Nav Node_More Range_Model Range_Spec Range_Proofs Range_Machine Range_Extract.
Import ListNotations.

(** ** Trails *)

Lemma exists_nil t : exists_at t []. Proof. exists t. constructor. Qed.
Lemma exists_one n ts i : i < List.length ts -> exists_at (T n ts) [i].
Proof. intros L. destruct (nth_error ts i) as [c|] eqn:E; [|apply nth_error_None in E; lia]. apply exists_cons. exists c. split; [exact E|apply exists_nil]. Qed.

Lemma cut_start s : forall p, list_leb (firstn (List.length p) s) p = true <-> upto s p \/ above p s.
Proof.
  intros p. rewrite list_leb_spec. revert s. induction p as [|x p IH]; intros s.
  - cbn [List.length firstn]. split; [intros _|intros _; apply upto_nil]. destruct s as [|y s]; [left; apply upto_nil|right; apply above_nil].
  - destruct s as [|y s]; cbn [List.length firstn]; [split; [intros _; left; apply upto_nil|intros _; apply upto_nil]|]. rewrite !upto_cons, above_cons2, IH. intuition lia.
Qed.
Lemma cut_end e : forall p, list_leb p (firstn (List.length p) e) = true <-> upto p e.
Proof.
  intros p. rewrite list_leb_spec. revert e. induction p as [|x p IH]; intros e; [split; intros _; apply upto_nil|].
  destruct e as [|y e]; cbn [List.length firstn]; [rewrite !upto_nil_r; reflexivity|]. now rewrite !upto_cons, IH.
Qed.

(** ** Everything below a node *)

Lemma follow_end_spec : forall e t, exists_at t e -> exists b, follow_end t e = Ok b /\ (b = true <-> forall q, exists_at t q -> upto q e).
Proof.
  induction e as [|i e IH]; intros [n ts] EX; cbn [follow_end children].
  - eexists. split; [reflexivity|]. split.
    + intros L q EQ. destruct q as [|j q]; [apply upto_nil|]. apply exists_cons in EQ as (c & E & _). destruct ts; [destruct j; discriminate|discriminate].
    + intros H. destruct ts as [|c ts]; [reflexivity|]. specialize (H [0] (exists_one n (c :: ts) 0 ltac:(cbn; lia))). apply upto_nil_r in H. discriminate.
  - apply exists_cons in EX as (c & E & EC). assert (I : i < List.length ts) by (apply nth_error_Some; congruence). destruct (Z.of_nat i <? Z.of_nat (List.length ts) - 1)%Z eqn:LT.
    + exists false. split; [reflexivity|]. split; [discriminate|]. intros H. specialize (H [S i] (exists_one n ts (S i) ltac:(lia))). apply upto_cons in H. lia.
    + unfold item_at. rewrite Nat2Z.id. cbn [children]. rewrite E. cbn [bindr]. destruct (IH c EC) as (b & -> & HB). exists b. split; [reflexivity|]. rewrite HB. split.
      * intros H q EQ. destruct q as [|j q]; [apply upto_nil|]. apply exists_cons in EQ as (d & E' & EQ). apply upto_cons. assert (J : j < List.length ts) by (apply nth_error_Some; congruence).
        destruct (Nat.eq_dec j i) as [->|N]; [right; split; [reflexivity|]; apply H; congruence|left; lia].
      * intros H q EQ. specialize (H (i :: q)). rewrite upto_cons, exists_cons in H. destruct H as [H|[_ H]]; [eauto|lia|exact H].
Qed.

Definition all_below t s e : Prop := forall q, exists_at t q -> reached s e q.

Lemma start_zero : forall s t, exists_at t s -> (existsb (fun i => negb (i =? 0)) s = false <-> forall q, exists_at t q -> upto s q \/ above q s).
Proof.
  induction s as [|i s IH]; intros [n ts] EX; cbn [existsb].
  - split; [intros _ q _; left; apply upto_nil|reflexivity].
  - apply exists_cons in EX as (c & E & EC). assert (I : i < List.length ts) by (apply nth_error_Some; congruence). rewrite orb_false_iff, (IH c EC). split.
    + intros [Z H] q EQ. assert (i = 0) by lia. subst i. destruct q as [|j q]; [right; apply above_nil|]. apply exists_cons in EQ as (d & E' & EQ). rewrite upto_cons, above_cons2.
      destruct j as [|j]; [|left; left; lia]. assert (d = c) by congruence. subst d. destruct (H q EQ); auto.
    + intros H. assert (i = 0).
      { destruct i as [|i]; [reflexivity|]. specialize (H [0] (exists_one n ts 0 ltac:(lia))). rewrite upto_cons, above_cons2 in H. lia. }
      subst i. split; [reflexivity|]. intros q EQ. specialize (H (0 :: q)). rewrite exists_cons, upto_cons, above_cons2 in H. destruct H as [[?|[_ ?]]|[_ ?]]; [eauto|lia|auto|auto].
Qed.

Lemma all_below_spec L s e : good L s e -> exists b, (let! x := end_in_range L in Ok (start_in_range L && x)) = Ok b /\ (b = true <-> all_below (l_node L) s e).
Proof.
  intros G. assert (S : start_in_range L = true <-> forall q, exists_at (l_node L) q -> match s with Some s => upto s q \/ above q s | None => True end).
  { unfold start_in_range. pose proof (g_start L s e G) as K. unfold keeps_start in K. pose proof (g_vs L s e G) as VS. destruct (truthy (l_start_trail L)) as [st|].
    - destruct K as [-> _]. rewrite negb_true_iff. apply start_zero. exact VS.
    - split; [|reflexivity]. intros _ q _. destruct K as [->| ->]; [exact Logic.I|left; apply upto_nil]. }
  assert (E : exists b, end_in_range L = Ok b /\ (b = true <-> forall q, exists_at (l_node L) q -> match e with Some e => upto q e | None => True end)).
  { unfold end_in_range. pose proof (g_end L s e G) as K. unfold keeps_end in K. pose proof (g_ve L s e G) as VE. destruct (l_end_trail L) as [et|]; cbn [option_map] in K; subst e.
    - apply follow_end_spec. exact VE.
    - exists true. split; [reflexivity|]. split; auto. }
  destruct E as (b & -> & HB). cbn [bindr]. eexists. split; [reflexivity|]. rewrite andb_true_iff, S, HB. unfold all_below, reached. split; [intros [H1 H2] q Q; split; [exact (H1 q Q)|exact (H2 q Q)]|].
  intros H. split; intros q Q; apply (H q Q).
Qed.

(** A range where nothing was visited yet, or that was used. *)
Definition made (t : tree) (s e : option (list nat)) (r : range) : Prop := r_start_trail r = s /\ r_end_trail r = e /\ good (base_level r) s e /\ l_node (base_level r) = t.

Lemma new_made t s e : valid t s -> valid t e -> exists r, new_range t s e = Ok r /\ made t s e r.
Proof. intros VS VE. destruct (fresh_range t s e VS VE) as (L & E & G & N & _). eexists. split; [exact E|]. repeat split; auto; apply G. Qed.

Lemma in_range_trail t s e r p : made t s e r -> p <> [] -> exists b, trail_in_range r p = Ok b /\ (b = true <-> between s e p).
Proof.
  intros (<- & <- & _) NE. unfold trail_in_range. destruct p as [|x p]; [congruence|]. eexists. split; [reflexivity|]. unfold between.
  assert (A : match truthy (r_start_trail r) with Some s => list_ltb (x :: p) s | None => false end = false <-> match r_start_trail r with Some s => upto s (x :: p) | None => True end).
  { destruct (r_start_trail r) as [[|y s]|]; cbn [truthy]; [split; [intros _; apply upto_nil|reflexivity]| |tauto]. rewrite <- not_true_iff_false, list_ltb_spec.
    destruct (upto_total (y :: s) (x :: p)) as [U|U]; [tauto|]. split; [|tauto]. intros NN. destruct (list_ltb (x :: p) (y :: s)) eqn:Q; [now apply list_ltb_spec in Q|].
    assert (list_leb (y :: s) (x :: p) = true) by (unfold list_leb; now rewrite Q). now apply list_leb_spec. }
  assert (C : match r_end_trail r with Some e => list_ltb e (x :: p) | None => false end = false <-> match r_end_trail r with Some e => upto (x :: p) e | None => True end).
  { destruct (r_end_trail r) as [e|]; [|tauto]. rewrite <- (list_leb_spec (x :: p) e). unfold list_leb. now rewrite negb_true_iff. }
  rewrite <- A, <- C. destruct (match truthy (r_start_trail r) with Some s => _ | None => _ end), (match r_end_trail r with Some e => _ | None => _ end); intuition congruence.
Qed.

Lemma in_range_ancestor t s e r : made t s e r -> exists b, trail_in_range r [] = Ok b /\ is_full r = Ok b /\ (b = true <-> all_below t s e).
Proof.
  intros (_ & _ & G & N). destruct (all_below_spec _ s e G) as (b & E & H). rewrite N in H. exists b. split; [exact E|]. split; [exact E|exact H].
Qed.

Lemma intersects_trail t s e r p : made t s e r -> e <> Some [] -> (trail_intersects r p = true <-> reached s e p).
Proof.
  intros (<- & <- & _) NE. unfold trail_intersects, reached. rewrite andb_true_iff.
  assert (A : match truthy (r_start_trail r) with Some s => list_leb (firstn (List.length p) s) p | None => true end = true <-> match r_start_trail r with Some s => upto s p \/ above p s | None => True end).
  { destruct (r_start_trail r) as [[|y s]|]; cbn [truthy]; [split; [intros _; left; apply upto_nil|reflexivity]|apply cut_start|tauto]. }
  assert (C : match truthy (r_end_trail r) with Some e => list_leb p (firstn (List.length p) e) | None => true end = true <-> match r_end_trail r with Some e => upto p e | None => True end).
  { destruct (r_end_trail r) as [[|y e]|]; cbn [truthy]; [congruence|apply cut_end|tauto]. }
  rewrite A, C. tauto.
Qed.

(** Reached means: something at or below the node is between the boundaries. *)
Lemma upto_above p q : above p q -> upto p q. Proof. intros A. right. now left. Qed.
Lemma between_below s e p q : between s e q -> (q = p \/ above p q) -> reached s e p.
Proof.
  intros [S E] [->|A]; [split; [destruct s; auto|destruct e; auto]|]. split.
  - destruct s as [s|]; [|exact Logic.I]. destruct (upto_total s p) as [U|U]; [auto|]. destruct U as [->|[U|U]]; [left; now left|now right|].
    (* p left of s, but p above q, so q left of s *)
    exfalso. destruct A as (x & l & ->). assert (LQ : left_of (p ++ x :: l) s) by now apply left_of_app_l.
    assert (X : s = p ++ x :: l) by (apply upto_antisym; [exact S|right; now right]). subst s. now apply left_of_irrefl in LQ.
  - destruct e as [e|]; [|exact Logic.I]. eapply upto_trans; [apply upto_above; exact A|exact E].
Qed.
Lemma reached_below t s e p : valid t s -> exists_at t p -> match s, e with Some s, Some e => upto s e | _, _ => True end -> reached s e p -> exists q, (q = p \/ above p q) /\ exists_at t q /\ between s e q.
Proof.
  intros VS EX U [S E]. destruct s as [s|]; [|exists p; split; [auto|]; split; [exact EX|split; [exact Logic.I|exact E]]].
  destruct S as [S|S]; [exists p; split; [auto|]; split; [exact EX|split; [exact S|exact E]]|]. exists s. split; [auto|]. split; [exact VS|]. split; [now left|]. destruct e; auto.
Qed.

(** ** in_range() and goto() *)

Lemma goto_pos t s e r p : made t s e r -> valid t s -> valid t e -> exists_at t p ->
  exists r' c, goto_trail r (Some p) = Ok r' /\ made t s e r' /\ reach t p c /\ current r' = Ok c /\ range_trail r' = map Z.of_nat p /\
    exists b, in_range r' = Ok b /\ (b = true <-> all_below c (inners s p) (inners e p)).
Proof.
  intros (RS & RE & G & N) VS VE EX. assert (G0 : good (set_index (base_level r) (-1)) s e) by (apply set_index_good; [exact G|lia]). unfold goto_trail, reset. rewrite RS, RE.
  destruct p as [|i p].
  - cbn [go_down]. eexists. exists t. split; [reflexivity|]. split; [repeat split; try apply G0; cbn; auto|]. split; [constructor|]. split; [unfold current; cbn; now rewrite N|]. split; [reflexivity|].
    unfold in_range. cbn [r_top set_index l_start l_index l_end]. assert (0 <= l_start (base_level r))%Z by (rewrite (g_lo _ _ _ G); lia). replace (l_start (base_level r) <? -1)%Z with false by lia. cbn [andb Z.ltb Z.compare Pos.compare Pos.compare_cont bindr].
    destruct (all_below_spec _ s e G0) as (b & E & HB). exists b. cbn [set_index l_node] in HB. rewrite N in HB. split; [exact E|exact HB].
  - destruct (go_down_pos s e (i :: p) t s e (set_index (base_level r) (-1)) [] ltac:(discriminate) G0 N EX) as (L' & b' & c & L2 & X1 & X2 & X3 & X4 & X5 & X6 & X7 & X8 & X9 & X10 & s' & e' & G' & IS & IE).
    exists (Range s e L' b'), c. split; [exact X1|]. split.
    { split; [reflexivity|]. split; [reflexivity|].
      assert (BL : forall p t0 s0 e0 L below L1 b1, l_node L = t0 -> good L s0 e0 -> go_down (Range s e L below) p = Ok (Range s e L1 b1) ->
        exists x, (forall d, List.last b1 d = match below with [] => List.last b1 d | _ => List.last below d end) /\ (below = [] -> List.last b1 L1 = set_index L x /\ (-1 <= x)%Z)).
      { clear. induction p as [|j p IH]; intros t0 s0 e0 L below L1 b1 EN G H; cbn [go_down] in H.
        - injection H as <- <-. exists (l_index L). split; [intros; destruct below; reflexivity|]. intros ->. cbn. split; [destruct L; reflexivity|apply (g_index _ _ _ G)].
        - cbn [with_top r_top r_start_trail r_end_trail r_below] in H. destruct p as [|k p].
          + injection H as <- <-. exists (Z.of_nat j). split; [intros; destruct below; reflexivity|]. intros ->. cbn. split; [reflexivity|lia].
          + destruct (level_child (set_index L (Z.of_nat j)) _) as [L2|] eqn:LC; [|discriminate]. cbn [bindr] in H.
            assert (G2 : exists s1 e1, good L2 s1 e1).
            { cbn [set_index l_index] in LC. assert (LC' := LC). unfold level_child in LC'. destruct (item_at (l_node (set_index L (Z.of_nat j))) (Z.of_nat j)) as [c|] eqn:IT; [|discriminate].
              unfold item_at in IT. rewrite Nat2Z.id in IT. destruct (nth_error (children (l_node (set_index L (Z.of_nat j)))) j) as [c'|] eqn:NT; [|discriminate].
              destruct (level_child_good (set_index L (Z.of_nat j)) s0 e0 j c' (set_index_good L s0 e0 (Z.of_nat j) G ltac:(lia)) NT) as (L3 & E3 & G3 & _). rewrite LC in E3. injection E3 as <-. eauto. }
            destruct G2 as (s1 & e1 & G2). destruct (IH (l_node L2) s1 e1 L2 _ L1 b1 eq_refl G2 H) as (x & A & _). exists (Z.of_nat j).
            split; [intros d; rewrite A; destruct below; [reflexivity|reflexivity]|]. intros ->. rewrite A. cbn. split; [reflexivity|lia]. }
      destruct (BL _ _ _ _ _ _ _ _ eq_refl G0 X1) as (x & _ & H). destruct (H eq_refl) as [HB HX]. unfold base_level. cbn [r_below r_top]. rewrite HB.
      split; [now apply set_index_good|exact N]. }
    split; [exact X2|]. split; [exact X3|]. split.
    { unfold range_trail. cbn [r_top r_below]. replace (l_index L' =? -1)%Z with false by lia. cbn [rev] in X5. rewrite map_app in X5. cbn [map app] in X5. exact X5. }
    unfold in_range. cbn [r_top]. destruct ((l_start L' <? l_index L') && (l_index L' <? l_end L'))%Z eqn:SC.
    + exists true. split; [reflexivity|]. split; [|reflexivity]. intros _. rewrite <- IS, <- IE. rewrite (g_lo _ _ _ G'), (g_hi _ _ _ G') in SC.
      assert (I1 : inner s' (Z.to_nat (l_index L')) = None) by (destruct s' as [[|y s']|]; cbn [inner lo] in *; try reflexivity; replace (Z.to_nat (l_index L') =? y) with false by lia; reflexivity).
      assert (I2 : inner e' (Z.to_nat (l_index L')) = None) by (destruct e' as [[|y e']|]; cbn [inner hi] in *; try reflexivity; replace (Z.to_nat (l_index L') =? y) with false by lia; reflexivity).
      rewrite I1, I2. intros q _. split; exact Logic.I.
    + replace (-1 <? l_index L')%Z with true by lia. rewrite X7. cbn [bindr]. destruct (all_below_spec L2 _ _ X8) as (b & E & H). exists b. rewrite X9 in H. split; [exact E|exact H].
Qed.

(** ** Nodes in the heap *)

Section InHeap.
Context {B : Type}.
Implicit Types h : heap B.

Lemma rep_reach h : forall t p m, rep h t -> reach t p m -> at_path h (tid t) p (tid m) /\ rep h m.
Proof.
  intros t p m RP R. revert RP. induction R as [t|n ts i c p t E R IH]; intros RP; [split; [constructor|exact RP]|].
  apply rep_eq in RP as [K F]. rewrite Forall_forall in F. destruct (IH (F c (nth_error_In _ _ E))) as [A RM]. split; [|exact RM]. cbn [tid]. econstructor; [|exact A]. rewrite K. now apply map_nth_error.
Qed.
Lemma rep_at_path h : forall p t n, rep h t -> at_path h (tid t) p n -> exists m, reach t p m /\ tid m = n.
Proof.
  induction p as [|i p IH]; intros [k ts] n RP A; inversion A as [|? ? c ? ? E A']; subst; [eexists; split; [constructor|reflexivity]|].
  apply rep_eq in RP as [K F]. cbn [tid] in *. rewrite K in E.
  destruct (nth_error ts i) as [x|] eqn:X.
  - assert (tid x = c) by (rewrite (map_nth_error tid i ts X) in E; congruence). subst c. rewrite Forall_forall in F. destruct (IH x n (F x (nth_error_In _ _ X)) A') as (m & R & M). exists m. split; [econstructor; eauto|exact M].
  - exfalso. apply nth_error_None in X. assert (nth_error (map tid ts) i = None) by (apply nth_error_None; rewrite map_length; exact X). congruence.
Qed.

Lemma get_trail_in h r pa anc p n fuel : integrity h -> par h r = None -> at_path h r pa anc -> at_path h anc p n -> List.length pa + List.length p < fuel -> get_trail fuel h anc n = Ok (Some p).
Proof.
  intros I RT A1 A2 L. assert (A := at_path_app h r anc n pa p A1 A2). unfold get_trail. destruct (Nat.eqb_spec n anc) as [->|N].
  - assert (X := path_unique h r _ _ anc I RT A A1). assert (p = []) by (apply (f_equal (@List.length nat)) in X; rewrite app_length in X; destruct p; [reflexivity|cbn in X; lia]). now subst p.
  - destruct (awi_spec h r _ n fuel I RT A) as (l & E1 & W1 & S1 & F1); [rewrite app_length; lia|]. unfold ancestors_with_index. rewrite E1. cbn [bindr]. rewrite W1. cbn [bindr]. f_equal.
    destruct p as [|i x]; [inversion A2; congruence|]. destruct (rows_split h r pa i x l I RT F1 S1) as (l1 & m' & l2 & -> & AM' & FL & SL & _). assert (m' = anc) by (eapply at_path_det; eauto). subst m'.
    rewrite up_to_some; [rewrite app_nil_r, SL, rev_involutive; reflexivity|]. intros J. destruct (Forall2_In_r _ _ _ _ FL J) as (q & P & AP). apply in_map_iff in P as (u & <- & _).
    assert (X := path_unique h r _ _ anc I RT AP A1). apply (f_equal (@List.length nat)) in X. rewrite app_length in X. cbn in X. lia.
Qed.

Lemma get_trail_out h r pn anc n fuel : integrity h -> par h r = None -> at_path h r pn n -> ~ inside h anc n -> List.length pn < fuel -> get_trail fuel h anc n = Ok None.
Proof.
  intros I RT A NI L. unfold get_trail. destruct (Nat.eqb_spec n anc) as [->|N]; [elim NI; exists []; constructor|].
  destruct (awi_spec h r _ n fuel I RT A L) as (l & E1 & W1 & S1 & F1). unfold ancestors_with_index. rewrite E1. cbn [bindr]. rewrite W1. cbn [bindr]. f_equal. apply up_to_none.
  intros J. destruct (Forall2_In_r _ _ _ _ F1 J) as (q & Q & AQ). apply ups_In in Q as (x & s & ->). destruct (at_path_split h r q (x :: s) n A) as (m & AM & AX). assert (m = anc) by (eapply at_path_det; eauto). subst m. apply NI. now exists (x :: s).
Qed.
End InHeap.
