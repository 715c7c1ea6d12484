(** Property C145: edits of nodes can be taken back. *)
From Coq Require Import List ZArith Bool PeanoNat Lia.
From Verif Require Import Base Node_Model Node_Spec Node_Proofs Node_Nav Node_More Node_Edits Node_Props Node_Frame.
Import ListNotations.

(** ** Specification *)

(** All nodes have the same children, in the same order. *)
Definition same_children {B} (h h' : heap B) : Prop := forall x, kids h' x = kids h x.
(** All nodes have the same class and contents. *)
Definition same_values {B} (h h' : heap B) : Prop := forall x, cls h' x = cls h x /\ body h' x = body h x.
(** All nodes but these have the same parent. *)
Definition same_parents {B} (except : nat -> Prop) (h h' : heap B) : Prop := forall x, ~ except x -> par h' x = par h x.

(** ** Proofs *)

Lemma set_parents_rest {B} (h : heap B) ns p : cls (set_parents h ns p) = cls h /\ body (set_parents h ns p) = body h.
Proof. unfold set_parents. revert h. induction ns as [|n ns IH]; intros h; cbn [fold_left]; [auto|]. destruct (IH (set_parent h n (Some p))) as [-> ->]. auto. Qed.

Lemma bounds_at (a b : list nat) : slice_bounds (a ++ b) (Some (Z.of_nat (List.length a))) (Some (Z.of_nat (List.length a))) = (List.length a, List.length a).
Proof.
  unfold slice_bounds, clamp. rewrite app_length. replace (Z.of_nat (List.length a) <? 0)%Z with false by (symmetry; apply Z.ltb_ge; lia).
  replace (Z.to_nat (Z.max 0 (Z.min (Z.of_nat (List.length a)) (Z.of_nat (List.length a + List.length b))))) with (List.length a) by lia. f_equal. lia.
Qed.
Lemma splice_in (a b m : list nat) : splice (a ++ b) (List.length a) (List.length a) m = a ++ m ++ b.
Proof. unfold splice. rewrite firstn_app, skipn_app, firstn_all, skipn_all, Nat.sub_diag. cbn. now rewrite app_nil_r. Qed.
Lemma inside_more {B} (h h' : heap B) x y : (forall n, incl (kids h n) (kids h' n)) -> inside h x y -> inside h' x y.
Proof.
  intros S (q & A). induction A as [n|r i c p n E A (q & IH)]; [exists []; constructor|].
  assert (J := S r c (nth_error_In _ _ E)). apply In_nth_error in J as (k & J). exists (k :: q). econstructor; eauto.
Qed.
Lemma child_not_above {B} (h : heap B) p n : integrity h -> In n (kids h p) -> ~ inside h n p.
Proof.
  intros I J (q & A). apply In_nth_error in J as (k & J). assert (X := acyclic h I p (k :: q)). discriminate X. econstructor; eauto.
Qed.
Lemma listed_old {B} (h : heap B) n : integrity h -> listed h n -> n < next h.
Proof. intros I L. destruct (Nat.lt_ge_cases n (next h)) as [|G]; [assumption|]. destruct (i_fresh h I n G) as [_ N]. contradiction. Qed.

Lemma NoDup_mid {A} (a m b : list A) : NoDup (a ++ m ++ b) -> NoDup m.
Proof.
  induction a as [|x a IH]; cbn [app]; intros N; [|inversion N; auto]. induction m as [|x m IHm]; [constructor|]. cbn [app] in N. inversion N as [|? ? NI N']; subst.
  constructor; [|auto]. intros J. apply NI. apply in_or_app. auto.
Qed.

(** A node that was taken out of the children of [p] can be added to [p] again. *)
Lemma taken_may_add {B} (h h1 : heap B) p n : integrity h -> In n (kids h p) -> next h1 = next h -> (forall x, x <> p -> kids h1 x = kids h x) ->
  incl (kids h1 p) (kids h p) -> ~ In n (kids h1 p) -> may_add h1 p n.
Proof.
  intros I J NX EL IN NI. assert (IC : forall x, incl (kids h1 x) (kids h x)).
  { intros x. destruct (Nat.eq_dec x p) as [->|NE]; [exact IN|]. rewrite EL by exact NE. apply incl_refl. }
  split; [split|].
  - rewrite NX. apply listed_old; [exact I|now exists p].
  - intros (q & Q). destruct (Nat.eq_dec q p) as [->|NE]; [contradiction|]. apply IC in Q. pose proof (i_parent h I _ _ Q) as P1. pose proof (i_parent h I _ _ J) as P2. congruence.
  - intros X. apply (child_not_above h p n I J). eapply inside_more; eauto.
Qed.

(** Nodes that are taken out, put back in the same place: nothing has changed. *)
Theorem C145_take_back : forall {B} (h : heap B) p i j a m b, integrity h -> p < next h -> part (kids h p) i j a m b ->
  let k := Z.of_nat (List.length a) in let es := [Take p i j; SetSlice p (Some k) (Some k) m] in
  fst (take h p i j) = m /\ history h es /\ same_children h (performs h es) /\ same_values h (performs h es) /\ same_parents (fun _ => False) h (performs h es).
Proof.
  intros B h p i j a m b I PN P k es. destruct (C36_take h p i j a m b P) as [TK KP]. split; [exact TK|].
  assert (KE : kids h p = a ++ m ++ b) by apply P. set (h1 := perform h (Take p i j)).
  assert (H1 : kids h1 p = a ++ b) by exact KP.
  assert (EL : forall x, x <> p -> kids h1 x = kids h x) by (intros x NE; apply perform_elsewhere; [exact I|cbn; congruence]).
  assert (R1 : next h1 = next h /\ par h1 = par h /\ cls h1 = cls h /\ body h1 = body h).
  { unfold h1. cbn [perform]. unfold take, del_slice. destruct (slice_bounds (kids h p) i j). cbn. auto. }
  destruct R1 as (NX & PA & CL & BO). assert (ND := i_once h I p). rewrite KE in ND.
  assert (PE : permitted h1 (SetSlice p (Some k) (Some k) m)).
  { cbn [permitted]. split; [now rewrite NX|]. split; [now apply NoDup_mid in ND|].
    destruct (slice_bounds (kids h1 p) (Some k) (Some k)) as [u v]. intros n J. left. apply (taken_may_add h); auto.
    - rewrite KE, !in_app_iff. auto.
    - rewrite H1, KE. intros x X. rewrite !in_app_iff in *. tauto.
    - rewrite H1. intros X. rewrite in_app_iff in X. clear - ND J X. apply in_split in J as (m1 & m2 & ->).
      rewrite app_assoc in ND. rewrite <- app_assoc in ND. replace (a ++ (m1 ++ n :: m2) ++ b) with ((a ++ m1) ++ n :: (m2 ++ b)) in ND by (now rewrite <- !app_assoc).
      apply NoDup_remove_2 in ND. apply ND. rewrite !in_app_iff. tauto. }
  split; [split; [exact Logic.I|split; [exact PE|exact Logic.I]]|].
  unfold es, performs. cbn [fold_left]. fold h1. cbn [perform]. unfold set_slice. destruct (set_parents_kids h1 m p) as (K2 & _ & _).
  rewrite K2, H1. unfold k. rewrite bounds_at. cbn [fst]. destruct (set_parents_rest h1 m p) as [C2 B2].
  split; [|split].
  - intros x. cbn [kids set_kids]. destruct (Nat.eq_dec x p) as [->|NE]; [rewrite upd_same, splice_in; now rewrite KE|]. rewrite upd_other by exact NE. rewrite K2. now apply EL.
  - intros x. cbn [cls body set_kids]. rewrite C2, B2, CL, BO. auto.
  - intros x _. cbn [par set_kids]. rewrite set_parents_par. destruct (in_dec Nat.eq_dec x m) as [J|_]; [|now rewrite PA]. symmetry. apply (i_parent h I). rewrite KE, !in_app_iff. auto.
Qed.
Print Assumptions C145_take_back.

(** A node that is inserted anywhere and removed from there again: only the node itself remembers it, it keeps its parent. *)
Theorem C145_insert_back : forall {B} (h : heap B) p i n, integrity h -> permitted h (Insert p i n) ->
  exists k, let es := [Insert p i n; Pop p (Z.of_nat k)] in
  nth_error (kids (perform h (Insert p i n)) p) k = Some n /\ same_children h (performs h es) /\ same_values h (performs h es) /\ same_parents (fun x => x = n) h (performs h es).
Proof.
  intros B h p i n I PE. set (k := Z.to_nat (clamp (Z.of_nat (List.length (kids h p))) i)). exists k. intros es.
  assert (KL : k <= List.length (kids h p)) by (unfold k, clamp; lia).
  assert (H1 : kids (perform h (Insert p i n)) p = firstn k (kids h p) ++ n :: skipn k (kids h p)).
  { cbn [perform]. unfold insert. cbn [fst kids set_kids set_parent]. rewrite upd_same. reflexivity. }
  assert (LF : List.length (firstn k (kids h p)) = k) by (rewrite firstn_length; lia).
  split; [rewrite H1, nth_error_app2, LF, Nat.sub_diag by lia; reflexivity|].
  assert (PO : position (kids (perform h (Insert p i n)) p) (Z.of_nat k) = Some k).
  { unfold position. rewrite H1, app_length, LF. cbn [List.length]. replace (Z.of_nat k <? 0)%Z with false by (symmetry; apply Z.ltb_ge; lia).
    replace ((0 <=? Z.of_nat k) && (Z.of_nat k <? Z.of_nat (k + S (List.length (skipn k (kids h p))))))%Z with true by (symmetry; apply andb_true_iff; split; [apply Z.leb_le|apply Z.ltb_lt]; lia). now rewrite Nat2Z.id. }
  unfold es, performs. cbn [fold_left]. change (perform (perform h (Insert p i n)) (Pop p (Z.of_nat k))) with (fst (del_item (perform h (Insert p i n)) p (Z.of_nat k))).
  unfold del_item. rewrite PO. cbn [fst]. split; [|split].
  - intros x. cbn [kids set_kids]. destruct (Nat.eq_dec x p) as [->|NE].
    + rewrite upd_same, H1. rewrite <- LF at 3 4. rewrite splice_at. cbn [app]. apply firstn_skipn.
    + rewrite upd_other by exact NE. apply perform_elsewhere; [exact I|cbn; congruence].
  - intros x. auto.
  - intros x NE. cbn. apply upd_other. exact NE.
Qed.
Print Assumptions C145_insert_back.

(** Reversed twice. *)
Theorem C145_reverse_back : forall {B} (h : heap B) p, let h' := performs h [Reverse p; Reverse p] in same_children h h' /\ same_values h h' /\ same_parents (fun _ => False) h h'.
Proof.
  intros B h p h'. split; [|split; intros x; auto]. intros x. unfold h', performs. cbn [fold_left perform]. unfold reverse. cbn [fst kids set_kids].
  destruct (Nat.eq_dec x p) as [->|NE]; [rewrite !upd_same; apply rev_involutive|now rewrite !upd_other by exact NE].
Qed.
Print Assumptions C145_reverse_back.

(** A node that is replaced by another one, which is then replaced by it. *)
Theorem C145_replace_back : forall {B} (h : heap B) s n p, integrity h -> In s (kids h p) -> permitted h (ReplaceWith s n) ->
  let es := [ReplaceWith s n; ReplaceWith n s] in history h es /\ same_children h (performs h es) /\ same_values h (performs h es) /\ same_parents (fun x => x = n) h (performs h es).
Proof.
  intros B h s n p I J PE es. assert (PS := i_parent h I _ _ J). assert (PE' := PE). destruct PE as (DN & NI & NS).
  apply in_split in J as (a & b & KE). assert (ND := i_once h I p). set (k := List.length a).
  assert (FI : find_index s (kids h p) = Some k) by (apply find_index_nth; [exact ND|]; rewrite KE; unfold k; rewrite nth_error_app2, Nat.sub_diag by lia; reflexivity).
  assert (PO : forall x y, position (a ++ x :: y) (Z.of_nat k) = Some k).
  { intros x y. unfold position, k. rewrite app_length. cbn [List.length]. replace (Z.of_nat (List.length a) <? 0)%Z with false by (symmetry; apply Z.ltb_ge; lia).
    replace ((0 <=? Z.of_nat (List.length a)) && (Z.of_nat (List.length a) <? Z.of_nat (List.length a + S (List.length y))))%Z with true by (symmetry; apply andb_true_iff; split; [apply Z.leb_le|apply Z.ltb_lt]; lia). now rewrite Nat2Z.id. }
  set (h1 := perform h (ReplaceWith s n)). assert (I1 : integrity h1) by (apply perform_integrity; assumption).
  assert (E1 : h1 = set_kids (set_parent (set_parent h n (Some s)) n (Some p)) p (a ++ n :: b)).
  { unfold h1. cbn [perform]. unfold replace_with. cbn [par kids set_parent]. rewrite upd_other by congruence. rewrite PS, FI. unfold set_item. cbn [kids set_parent]. rewrite KE, PO. cbn [fst]. unfold k. now rewrite splice_at. }
  assert (K1 : kids h1 p = a ++ n :: b) by (rewrite E1; cbn [kids set_kids]; apply upd_same).
  assert (EL : forall x, x <> p -> kids h1 x = kids h x) by (intros x NE; rewrite E1; cbn [kids set_kids set_parent]; now apply upd_other).
  assert (P1 : par h1 n = Some p) by (rewrite E1; cbn [par set_kids set_parent]; apply upd_same).
  assert (FI1 : find_index n (kids h1 p) = Some k) by (apply find_index_nth; [apply I1|]; rewrite K1; unfold k; rewrite nth_error_app2, Nat.sub_diag by lia; reflexivity).
  assert (PE1 : permitted h1 (ReplaceWith n s)).
  { rewrite KE in ND. apply NoDup_remove_2 in ND. assert (SN : ~ In s (kids h1 p)) by (rewrite K1; intros X; apply in_app_or in X as [X|[X|X]]; [apply ND, in_or_app; auto|congruence|apply ND, in_or_app; auto]).
    assert (L : ~ listed h1 s). { intros (q & Q). destruct (Nat.eq_dec q p) as [->|NE]; [contradiction|]. rewrite EL in Q by exact NE. apply (i_parent h I) in Q. congruence. }
    split; [split; [rewrite E1; apply (listed_old h s I); exists p; rewrite KE; apply in_or_app; right; now left|exact L]|]. split; [|congruence].
    intros q Q X. rewrite P1 in Q. injection Q as <-. destruct X as (x & A).
    assert (G : forall x r y, at_path h1 r x y -> y = p -> inside h r p).
    { clear - EL. induction 1 as [y|r i c q y E A IH]; intros ->; [exists []; constructor|]. destruct (Nat.eq_dec r p) as [->|NE]; [exists []; constructor|].
      rewrite EL in E by exact NE. destruct (IH eq_refl) as (z & Z). exists (i :: z). econstructor; eauto. }
    apply (child_not_above h p s I); [rewrite KE; apply in_or_app; right; now left|]. eapply G; eauto. }
  split; [split; [exact PE'|split; [exact PE1|exact Logic.I]]|].
  assert (E2 : performs h es = set_kids (set_parent (set_parent h1 s (Some n)) s (Some p)) p (a ++ s :: b)).
  { unfold es, performs. cbn [fold_left]. fold h1. cbn [perform]. unfold replace_with. cbn [par kids set_parent]. rewrite upd_other by congruence. rewrite P1, FI1. unfold set_item. cbn [kids set_parent]. rewrite K1, PO. cbn [fst]. unfold k. now rewrite splice_at. }
  rewrite E2. split; [|split].
  - intros x. cbn [kids set_kids set_parent]. destruct (Nat.eq_dec x p) as [->|NE]; [rewrite upd_same; now rewrite KE|]. rewrite upd_other by exact NE. now apply EL.
  - intros x. rewrite E1. auto.
  - intros x NE. cbn [par set_kids set_parent]. destruct (Nat.eq_dec x s) as [->|NX]; [rewrite upd_same; congruence|]. rewrite !upd_other by exact NX. rewrite E1. cbn [par set_kids set_parent]. now rewrite !upd_other by exact NE.
Qed.
Print Assumptions C145_replace_back.

(** The tree 4 = (3 = (0, 1), 2): both children of 3 are taken out and put back; a new node 5 is inserted before 2 and removed, and takes the
    place of 3 for a while. *)
Example C145_witness : integrity ex /\ 3 < next ex /\ part (kids ex 3) None (Some 5%Z) [] [0; 1] [] /\
  let h := perform ex (New 1 20 []) in integrity h /\ permitted h (Insert 4 1 5) /\ kids (perform h (Insert 4 1 5)) 4 = [3; 5; 2] /\
  In 3 (kids h 4) /\ permitted h (ReplaceWith 3 5) /\ kids (perform h (ReplaceWith 3 5)) 4 = [5; 2].
Proof.
  split; [apply ex_integrity|]. split; [vm_compute; lia|]. split; [repeat split|]. cbv zeta.
  assert (I : integrity (perform ex (New 1 20 []))) by (apply perform_integrity; [apply ex_integrity|split; [constructor|intros n []]]).
  assert (D : detached (perform ex (New 1 20 [])) 5) by (apply detached_dec; [exact I|reflexivity]).
  split; [exact I|]. split; [split; [cbn; lia|]; split; [exact D|apply leaf_outside; [reflexivity|lia]]|]. split; [reflexivity|]. split; [left; reflexivity|]. split; [|reflexivity].
  split; [exact D|]. split; [|lia]. intros p E. injection E as <-. apply leaf_outside; [reflexivity|lia].
Qed.
