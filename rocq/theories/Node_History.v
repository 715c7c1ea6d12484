(** Property C146: a whole history of edits can be taken back. *)
From Coq Require Import List ZArith Bool PeanoNat Lia.
From Verif Require Import Base Node_Model Node_Spec Node_Proofs Node_Nav Node_More Node_Edits Node_Props Node_Frame Node_Undo.
Import ListNotations.

(** ** Specification *)

(** Taking back an edit: [node[:] = children], with the node that was edited and the children it had before. *)
Definition undo_edit {B} (h : heap B) (e : edit B) : list (edit B) :=
  match target h e with
  | Some p => if p <? next (perform h e) then [SetSlice p None None (kids h p)] else [] (* there is no such node *)
  | None => []
  end.
(** Taking back a history: its edits, the last one first. *)
Fixpoint undo {B} (h : heap B) (es : list (edit B)) : list (edit B) :=
  match es with [] => [] | e :: r => undo (perform h e) r ++ undo_edit h e end.

(** ** Proofs *)

Lemma history_app {B} (a b : list (edit B)) : forall h, history h (a ++ b) <-> history h a /\ history (performs h a) b.
Proof. unfold performs. induction a as [|e a IH]; intros h; cbn [app history fold_left]; [tauto|]. rewrite IH. tauto. Qed.
Lemma performs_app {B} (h : heap B) a b : performs h (a ++ b) = performs (performs h a) b.
Proof. unfold performs. apply fold_left_app. Qed.
Lemma performs_values {B} (es : list (edit B)) : forall h x, x < next h -> cls (performs h es) x = cls h x /\ body (performs h es) x = body h x /\ x < next (performs h es).
Proof.
  unfold performs. induction es as [|e es IH]; intros h x L; cbn [fold_left]; [auto|]. destruct (C141_values h e x L) as (C & D & L').
  destruct (IH _ _ L') as (-> & -> & X). auto.
Qed.
Lemma all_bounds (l : list nat) : slice_bounds l None None = (0, List.length l).
Proof. unfold slice_bounds. rewrite Nat2Z.id. f_equal. Qed.
Lemma all_slice (l : list nat) : slice l 0 (List.length l) = l.
Proof. unfold slice. cbn [skipn]. rewrite Nat.sub_0_r. apply firstn_all. Qed.
Lemma all_splice (l m : list nat) : splice l 0 (List.length l) m = m.
Proof. unfold splice. cbn [firstn app]. rewrite skipn_all. apply app_nil_r. Qed.
Lemma set_all {B} (g : heap B) p m x : kids (perform g (SetSlice p None None m)) x = if x =? p then m else kids g x.
Proof.
  cbn [perform]. unfold set_slice. destruct (set_parents_kids g m p) as (K & _ & _). rewrite K, all_bounds, all_splice. cbn [fst kids set_kids]. unfold upd. now rewrite K.
Qed.
Lemma inside_above {B} (h g : heap B) p : (forall x, x <> p -> kids g x = kids h x) -> forall n, inside g n p -> inside h n p.
Proof.
  intros EL n (q & A). remember p as y eqn:E in A. induction A as [y|r i c q y J A IH]; subst; [exists []; constructor|].
  destruct (Nat.eq_dec r p) as [->|NE]; [exists []; constructor|]. rewrite EL in J by exact NE. destruct (IH eq_refl) as (z & Z). exists (i :: z). econstructor; eauto.
Qed.

(** One edit, taken back in a heap with the same children. *)
Lemma undo_one {B} (h g : heap B) e : integrity h -> permitted h e -> next (perform h e) <= next g -> same_children (perform h e) g ->
  history g (undo_edit h e) /\ same_children h (performs g (undo_edit h e)).
Proof.
  intros I PE NX SC. unfold undo_edit. destruct (target h e) as [p|] eqn:TG.
  2: { split; [exact Logic.I|]. intros x. change (kids g x = kids h x). rewrite (SC x). apply perform_elsewhere; [exact I|]. rewrite TG. discriminate. }
  assert (EL : forall x, x <> p -> kids g x = kids h x) by (intros x NE; rewrite (SC x); apply perform_elsewhere; [exact I|congruence]).
  destruct (Nat.ltb_spec p (next (perform h e))) as [L|G].
  - split.
    + split; [|exact Logic.I]. cbn [permitted]. split; [lia|]. split; [apply (i_once h I)|]. rewrite all_bounds, all_slice. intros n J.
      destruct (in_dec Nat.eq_dec n (kids g p)) as [X|NI]; [now right|left]. split; [split|].
      * assert (N := listed_old h n I (ex_intro _ p J)). destruct (C141_values h e n N) as (_ & _ & N'). lia.
      * intros (q & Q). destruct (Nat.eq_dec q p) as [->|NE]; [contradiction|]. rewrite EL in Q by exact NE.
        pose proof (i_parent h I _ _ Q). pose proof (i_parent h I _ _ J). congruence.
      * intros X. apply (child_not_above h p n I J). eapply inside_above; eauto.
    + intros x. unfold performs. cbn [fold_left]. rewrite set_all. destruct (Nat.eqb_spec x p) as [->|NE]; [reflexivity|now apply EL].
  - split; [exact Logic.I|]. intros x. unfold performs. cbn [fold_left]. destruct (Nat.eq_dec x p) as [->|NE]; [|now apply EL]. rewrite (SC p).
    assert (I' := perform_integrity h e I PE). rewrite (proj1 (i_fresh _ I' p G)). symmetry. apply (i_fresh h I p).
    destruct (Nat.lt_ge_cases p (next h)) as [L|]; [|assumption]. destruct (C141_values h e p L) as (_ & _ & L'). lia.
Qed.

(** Any history of edits can be taken back by assigning the earlier children to the edited nodes, in the opposite order. This is itself a
    permitted history, and after it all nodes have the children they had, these have their parents, and nodes have their class and contents. *)
Theorem C146_undo : forall {B} (es : list (edit B)) (h : heap B), integrity h -> history h es ->
  let h' := performs (performs h es) (undo h es) in
  history (performs h es) (undo h es) /\ integrity h' /\ same_children h h' /\
  (forall p n, In n (kids h p) -> par h' n = Some p) /\ (forall x, x < next h -> cls h' x = cls h x /\ body h' x = body h x).
Proof.
  intros B es h I H h'.
  assert (M : forall (es : list (edit B)) h, integrity h -> history h es -> history (performs h es) (undo h es) /\ same_children h (performs (performs h es) (undo h es))).
  { clear. induction es as [|e es IH]; intros h I H; [split; [exact Logic.I|intros x; reflexivity]|]. destruct H as [PE H]. assert (I' := perform_integrity h e I PE).
    destruct (IH _ I' H) as [H1 S1]. cbn [undo]. change (performs h (e :: es)) with (performs (perform h e) es). rewrite history_app, performs_app.
    set (g := performs (performs (perform h e) es) (undo (perform h e) es)) in *.
    assert (NX : next (perform h e) <= next g).
    { destruct (next (perform h e)) as [|k] eqn:E; [lia|]. assert (L : k < next (perform h e)) by lia. unfold g. rewrite <- performs_app. apply (performs_values (es ++ undo (perform h e) es)) in L. lia. }
    destruct (undo_one h g e I PE NX S1) as [H2 S2]. auto. }
  destruct (M es h I H) as [H1 S1]. assert (I' : integrity h') by (apply history_integrity; [now apply history_integrity|exact H1]).
  split; [exact H1|]. split; [exact I'|]. split; [exact S1|]. split.
  - intros p n J. apply (i_parent h' I'). unfold h'. now rewrite (S1 p).
  - intros x L. unfold h'. rewrite <- performs_app. destruct (performs_values (es ++ undo h es) h x L) as (C & D & _). auto.
Qed.
Print Assumptions C146_undo.

(** The same trees are there again. *)
Theorem C146_trees : forall {B} (es : list (edit B)) (h : heap B), integrity h -> history h es ->
  forall r q x, at_path (performs (performs h es) (undo h es)) r q x <-> at_path h r q x.
Proof.
  intros B es h I H r q x. destruct (C146_undo es h I H) as (_ & _ & S & _). split; intros A.
  - induction A as [n|r i c p n E A IH]; [constructor|]. rewrite (S r) in E. econstructor; eauto.
  - induction A as [n|r i c p n E A IH]; [constructor|]. rewrite <- (S r) in E. econstructor; eauto.
Qed.
Print Assumptions C146_trees.

(** The tree 4 = (3 = (0, 1), 2): node 1 is taken out and put into a new node 5, that takes the place of 2; then the children of 4 are reversed. *)
Example C146_witness : let es := [Remove 3 1; New 1 20 [1]; ReplaceWith 2 5; Reverse 4] in integrity ex /\ history ex es /\
  (let h := performs ex es in kids h 4 = [5; 3] /\ kids h 5 = [1] /\ kids h 3 = [0]) /\
  undo ex es = [SetSlice 4 None None [3; 5]; SetSlice 4 None None [3; 2]; SetSlice 5 None None []; SetSlice 3 None None [0; 1]].
Proof.
  cbv zeta. split; [apply ex_integrity|]. split; [|repeat split].
  assert (I1 : integrity (perform ex (Remove 3 1))) by (apply perform_integrity; [apply ex_integrity|exact Logic.I]).
  assert (P2 : permitted (perform ex (Remove 3 1)) (New 1 20 [1])).
  { split; [constructor; [intros []|constructor]|]. intros n [<-|[]]. apply detached_dec; [exact I1|reflexivity]. }
  assert (I2 := perform_integrity _ _ I1 P2). split; [exact Logic.I|]. split; [exact P2|]. split; [|repeat split].
  split; [apply detached_dec; [exact I2|reflexivity]|]. split; [|lia]. intros p E. injection E as <-.
  intros (q & A). inversion A as [|? i c ? ? J A']; subst. destruct i as [|[|i]]; cbn in J; try discriminate J. injection J as <-.
  inversion A' as [|? i c ? ? J A2]; subst. destruct i as [|i]; discriminate J.
Qed.
