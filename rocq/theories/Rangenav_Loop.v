(** Replacing nodes while iterating over a range (property C118). *)
From Coq Require Import List ZArith Bool PeanoNat Lia.
From Verif Require Import Base Node_Model Node_Spec Node_Nav Node_Props Range_Model Range_Spec Range_Proofs Range_Machine Rangenav_Model Rangenav_Spec Rangenav_Proofs Rangenav_Props Rangenav_Setter.
Import ListNotations.

Lemma replaced_self t p m : reach t p m -> replaced m t p t.
Proof.
  intros R. induction R as [t|n ts i c p t E R IH]; [constructor|]. apply nth_error_split in E as (l & r & -> & <-). now constructor.
Qed.
Lemma cut_here {A} : forall (l l' : list A) (x y : A) r r', l ++ x :: r = l' ++ y :: r' -> List.length l = List.length l' -> l = l' /\ x = y /\ r = r'.
Proof. induction l as [|a l IH]; intros [|b l'] x y r r' E L; try discriminate; cbn [app] in E; injection E as E1 E2; [auto|]. destruct (IH _ _ _ _ _ E2 ltac:(cbn in L; lia)) as (-> & -> & ->). subst. auto. Qed.
Lemma replaced_again a b t p t1 t2 : replaced a t p t1 -> replaced b t1 p t2 -> replaced b t p t2.
Proof.
  intros R. revert t2. induction R as [t|n l c r p c' R IH]; intros t2 R2; [inversion R2; subst; constructor|].
  remember (T n (l ++ c' :: r)) as u eqn:EU. remember (List.length l :: p) as pp eqn:EP. destruct R2 as [u|n2 l2 c2 r2 p2 c2' R2]; [discriminate|]. injection EU as -> E. injection EP as L ->. destruct (cut_here _ _ _ _ _ _ E L) as (-> & -> & ->). rewrite <- L || idtac. constructor. now apply IH.
Qed.
Lemma replaced_child v t q j t2 : replaced v t (q ++ [j]) t2 -> exists n l c r, reach t q (T n (l ++ c :: r)) /\ List.length l = j /\ replaced (T n (l ++ v :: r)) t q t2.
Proof.
  revert t t2. induction q as [|i q IH]; intros t t2 R; cbn [app] in R; inversion R as [|n l c r p c' R' E1 E2 E3]; subst.
  - inversion R'; subst. exists n, l, c, r. split; [constructor|]. split; [reflexivity|]. constructor.
  - destruct (IH _ _ R') as (n0 & l0 & c0 & r0 & R0 & J & R1). exists n0, l0, c0, r0. split; [|split; [exact J|now constructor]]. econstructor; [|exact R0]. rewrite nth_error_app2, Nat.sub_diag by lia. reflexivity.
Qed.
Lemma replaced_at v t q t2 : replaced v t q t2 -> reach t2 q v.
Proof. intros R. induction R as [t|n l c r p c' R IH]; [constructor|]. econstructor; [|exact IH]. rewrite nth_error_app2, Nat.sub_diag by lia. reflexivity. Qed.
Lemma reach_one t q : forall m m', reach t q m -> reach t q m' -> m = m'.
Proof. revert t. induction q as [|i q IH]; intros t m m' A B; [inversion A; inversion B; congruence|]. inversion A; subst. inversion B; subst. replace c0 with c in * by congruence. eauto. Qed.

Lemma turn_level t s e rv p b q j : in_turn t s e rv p b q j -> q = level_path p b.
Proof. intros H. destruct H as [p j V|q i j V L]; [reflexivity|]. unfold level_path. now rewrite removelast_last. Qed.
Lemma turn_view t s e rv p b q j : in_turn t s e rv p b q j -> in_view t s e (q ++ [j]).
Proof. intros H. now destruct H. Qed.
Lemma turn_later t s e rv p b q j k : in_turn t s e rv p b q j -> past rv j k -> in_view t s e (q ++ [k]) -> in_turn t s e rv p b q k.
Proof. intros H L V. destruct H as [p j VJ|q i j VJ P]; [now constructor|]. constructor; [exact V|]. unfold past in *. destruct rv; lia. Qed.
Lemma turn_past t s e rv q j k : in_turn t s e rv (q ++ [j]) false q k <-> past rv j k /\ in_view t s e (q ++ [k]).
Proof.
  split; [|intros [L V]; now constructor]. intros H. remember (q ++ [j]) as p eqn:EP. remember false as b eqn:EB. destruct H as [p k V|q i k V L]; [discriminate|]. apply app_inj_tail in EP as [_ ->]. auto.
Qed.

Lemma loop_works rv f : forall k t s e r p b n ts, used t s e r -> stands r p b -> reach t (level_path p b) (T n ts) ->
  (forall j, in_turn t s e rv p b (level_path p b) j -> (if rv then j else List.length ts - S j) < k) ->
  exists r' t' s' e' ts', edit_loop rv f r r' /\ used t' s' e' r' /\ replaced (T n ts') t (level_path p b) t' /\ List.length ts' = List.length ts /\
    forall j c, nth_error ts j = Some c -> (in_turn t s e rv p b (level_path p b) j -> nth_error ts' j = Some (f c)) /\ (~ in_turn t s e rv p b (level_path p b) j -> nth_error ts' j = Some c).
Proof.
  induction k as [|k IH]; intros t s e r p b n ts U ST R K; destruct (C117_step t s e r p b rv U ST) as [[X N]|(j & c & r1 & X & ST1 & RC & F1 & F2)].
  1,3: exists r, t, s, e, ts; split; [now constructor|]; split; [exact U|]; split; [now apply replaced_self|]; split; [reflexivity|]; intros j c E; split; [intros T; now apply N in T|auto].
  1: specialize (K j F1); lia.
  set (q := level_path p b) in *. assert (U1 : used t s e r1) by (eapply used_step; eauto).
  destruct (C118_node t s e r1 (q ++ [j]) false (f c) U1 ST1) as (r2 & t2 & s2 & e2 & X2 & RP & RS & RE & U2 & ST2 & _); [now destruct q|].
  destruct (C118_view t s e r1 (q ++ [j]) false (f c) r2 t2 s2 e2 U1 ST1 X2 RP RS RE) as (_ & VIEW & _).
  destruct (replaced_child _ _ _ _ _ RP) as (n0 & l & c0 & rr & R0 & J & RQ). assert (EQ := reach_one _ _ _ _ R R0). injection EQ as -> ->.
  assert (c0 = c). { rewrite (reach_app t q _ [j] c R0) in RC. apply reach_cons in RC as (d & D & RD). inversion RD; subst. rewrite nth_error_app2, Nat.sub_diag in D by lia. cbn in D. congruence. } subst c0.
  assert (LP : level_path (q ++ [j]) false = q) by (unfold level_path; apply removelast_last).
  assert (V2 : forall i, i <> j -> (in_view t2 s2 e2 (q ++ [i]) <-> in_view t s e (q ++ [i]))).
  { intros i NI. apply VIEW. intros (x & y & E). apply (f_equal (@List.length nat)) in E. rewrite !app_length in E. cbn in E. lia. }
  assert (PA : forall i, past rv j i -> i <> j) by (intros i; unfold past; destruct rv; lia).
  destruct (IH t2 s2 e2 r2 (q ++ [j]) false n0 (l ++ f c :: rr) U2 ST2) as (r' & t' & s' & e' & ts' & EL & U' & RT & LT & H).
  - rewrite LP. now apply (replaced_at _ t).
  - rewrite LP. intros i T. apply turn_past in T as [PI VI]. apply V2 in VI; [|now apply PA]. specialize (K j F1).
    assert (IL : i < List.length (l ++ c :: rr)) by (destruct VI as [VI _]; apply (exists_app t q _ [i] R0) in VI; apply exists_cons in VI as (d & E & _); apply nth_error_Some; congruence).
    rewrite app_length in *. cbn [List.length] in *. unfold past in PI. destruct rv; lia.
  - rewrite LP in *. exists r', t', s', e', ts'. split; [eapply loop_next; eauto|]. split; [exact U'|]. split; [eapply replaced_again; eauto|]. split; [rewrite LT, !app_length; reflexivity|]. intros i d E.
    destruct (Nat.eq_dec i j) as [->|NI].
    + split; [intros _|tauto]. subst j. rewrite nth_error_app2, Nat.sub_diag in E by lia. cbn in E. injection E as <-. apply (H (List.length l) (f c)); [rewrite nth_error_app2, Nat.sub_diag by lia; reflexivity|]. rewrite turn_past. intros [PI _]. now apply PA in PI.
    + assert (E' : nth_error (l ++ f c :: rr) i = Some d).
      { rewrite <- E. destruct (Nat.lt_ge_cases i (List.length l)); [now rewrite !nth_error_app1 by lia|]. rewrite !nth_error_app2 by lia. destruct (i - List.length l) eqn:Q; [lia|reflexivity]. }
      destruct (H i d E') as [H1 H2]. split.
      * intros T. apply H1. rewrite turn_past. specialize (F2 i T). split; [unfold past; destruct rv; lia|]. apply V2; [exact NI|]. now apply turn_view in T.
      * intros NT. apply H2. rewrite turn_past. intros [PI VI]. apply NT. eapply turn_later; [exact F1|exact PI|]. now apply V2.
Qed.

(** A loop over a level, forward or backward, can replace every node it gets: it ends; each child that was in the range is replaced
    exactly once, by what was made of it; all other nodes of the document are the same; and the range goes on to be a range of the new document. *)
Theorem C118_loop : forall t s e r p rv f, used t s e r -> stands r p true ->
  exists r' t' s' e' n ts ts', edit_loop rv f r r' /\ used t' s' e' r' /\ (forall r2, edit_loop rv f r r2 -> r2 = r') /\
    reach t p (T n ts) /\ replaced (T n ts') t p t' /\ List.length ts' = List.length ts /\
    forall j c, nth_error ts j = Some c -> (in_view t s e (p ++ [j]) -> nth_error ts' j = Some (f c)) /\ (~ in_view t s e (p ++ [j]) -> nth_error ts' j = Some c).
Proof.
  intros t s e r p rv f U ST. destruct (used_at t s e r p true U ST) as (VS & VE & C). destruct (cur_node t s e p true r VS VE C) as ([n ts] & R & _).
  destruct (loop_works rv f (S (List.length ts)) t s e r p true n ts U ST R) as (r' & t' & s' & e' & ts' & EL & U' & RP & LT & H).
  { intros j T. apply turn_view in T as [X _]. cbn [level_path] in X. apply (exists_app t p _ [j] R) in X. apply exists_cons in X as (d & E & _). assert (j < List.length ts) by (apply nth_error_Some; congruence). destruct rv; lia. }
  cbn [level_path] in *. exists r', t', s', e', n, ts, ts'. split; [exact EL|]. split; [exact U'|]. split.
  { clear - EL. induction EL as [r X|r c r1 r2 r3 X Y EL IH]; intros r4 E4; inversion E4; subst; try congruence. apply IH. congruence. }
  split; [exact R|]. split; [exact RP|]. split; [exact LT|]. intros j c E. destruct (H j c E) as [H1 H2]. split; [intros V; apply H1; now constructor|]. intros NV. apply H2. intros T. now apply turn_view in T.
Qed.
Print Assumptions C118_loop.

(** Replacing the children of the document of C117: those at 0 and 1 are in the range. *)
Example C118_loop_witness : used walked (Some [0; 1]) (Some [1; 1]) r0 /\ stands r0 [] true /\
  exists r', edit_loop false (fun c => T (100 + tid c) []) r0 r' /\ ancestor r' = T 0 [T 101 []; T 105 []; T 10 []].
Proof.
  split; [apply used_new; [existing|existing|vm_compute; reflexivity]|]. split; [split; vm_compute; reflexivity|].
  eexists. split; [eapply loop_next; [vm_compute; reflexivity|vm_compute; reflexivity|]; eapply loop_next; [vm_compute; reflexivity|vm_compute; reflexivity|]; apply loop_end; vm_compute; reflexivity|]. reflexivity.
Qed.
