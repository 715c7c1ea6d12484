(** Theorems about lily.duration_getter(): C72. *)
From Coq Require Import List ZArith QArith Bool Lia.
From Verif Require Import Base Duration_Model Rhythm_Model Getter_Model Getter_Spec Getter_Proofs.
Import ListNotations.
Open Scope nat_scope.

(** ** C72: the getter returns what previous_duration() would find, whatever was asked before *)
(** Missing for the full claim: documents that are not [flat], where it is false (C72_chord_finding). *)
Theorem C72_getter_partial : forall root l, flat root -> calls root fresh l = map (effective root) l.
Proof. intros root l F. apply calls_ok; [exact F|apply good_fresh]. Qed.
Print Assumptions C72_getter_partial.

Definition dur (n : positive) : dnode := (1 # n, [])%Q.
Definition note (l : list dnode) : rn := RN KDurable None l [].
(** { c2 <d e> f \skip 1 g a8 b } *)
Definition example : rn := RN (KOther true true) None [] [note [dur 2]; RN KDurable None [] [RN (KOther true true) None [] [note []; note []]]; note []; RN KSkip None [dur 1] []; note []; note [dur 8]; note []].
Fixpoint silent (n : rn) : bool := negb (sets n) && forallb silent (kids_of n).
Fixpoint flatb (n : rn) : bool := (if sets_previous (kind_of n) && match durs_of n with [] => true | _ => false end then forallb silent (kids_of n) else true) && forallb flatb (kids_of n).
Lemma silent_at q : forall n m, silent n = true -> node_at n q = Some m -> silent m = true.
Proof.
  induction q as [|i q IH]; intros n m H N; [injection N as <-; exact H|]. cbn [node_at] in N. destruct (nth_error (kids_of n) i) as [c|] eqn:C; [|discriminate]. apply (IH c m); [|exact N].
  destruct n as [k b d kids]. cbn in H. apply andb_true_iff in H. destruct H as (_ & H). rewrite forallb_forall in H. apply H. eapply nth_error_In; exact C.
Qed.
Lemma flatb_at q : forall n m, flatb n = true -> node_at n q = Some m -> flatb m = true.
Proof.
  induction q as [|i q IH]; intros n m H N; [injection N as <-; exact H|]. cbn [node_at] in N. destruct (nth_error (kids_of n) i) as [c|] eqn:C; [|discriminate]. apply (IH c m); [|exact N].
  destruct n as [k b d kids]. cbn in H. apply andb_true_iff in H. destruct H as (_ & H). rewrite forallb_forall in H. apply H. eapply nth_error_In; exact C.
Qed.
Lemma flatb_flat root : flatb root = true -> flat root.
Proof.
  intros H p q n m N M Q SN SM DN. rewrite node_at_app, N in M. apply (flatb_at p _ _ H) in N. destruct n as [k b d kids]. cbn in N, SN, DN. subst d. rewrite SN in N. cbn in N. apply andb_true_iff in N. destruct N as (N & _).
  destruct q as [|i q]; [congruence|]. cbn [node_at kids_of] in M. destruct (nth_error kids i) as [c|] eqn:C; [|discriminate]. rewrite forallb_forall in N. apply nth_error_In in C. pose proof (silent_at q _ _ (N c C) M) as X.
  destruct m as [k' b' d' kids']. cbn in X, SM |- *. unfold sets in X. cbn in X. rewrite SM in X. destruct d'; [reflexivity|discriminate].
Qed.
Example C72_witness : flat example /\ calls example fresh [[4]; [1]; [6]; [1; 0; 1]; [2]; [3]] = [Some (1#2, 1); Some (1#2, 1); Some (1#8, 1); Some (1#2, 1); Some (1#2, 1); Some (1#1, 1)]%Q.
Proof. split; [apply flatb_flat; reflexivity|reflexivity]. Qed.
(** Finding: with a duration inside a chord (which rhythm.explicit() writes) the answer for the chord depends on what was asked before:
    { c2 <d4> e }, asking for the chord alone, and asking for e first. *)
Theorem C72_chord_finding :
  let doc := RN (KOther true true) None [] [note [dur 2]; RN KDurable None [] [RN (KOther true true) None [] [note [dur 4]]]; note []] in
  calls doc fresh [[1]] = [Some (1#2, 1)%Q] /\ calls doc fresh [[2]; [1]] = [Some (1#4, 1)%Q; Some (1#4, 1)%Q].
Proof. split; reflexivity. Qed.
Print Assumptions C72_chord_finding.
