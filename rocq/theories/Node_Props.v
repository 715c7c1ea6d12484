(** Theorems about node trees (C36-C42). *)
From Coq Require Import List ZArith Bool PeanoNat Relations Sorting.Sorted Lia ZifyBool ZifyNat.
From Verif Require Import Base Node_Model Node_Spec Node_Proofs Node_Nav Node_More Node_Edits.
Import ListNotations.

Section Lemmas.
Context {B : Type}.
Implicit Types h : heap B.

Lemma at_path_snoc h r p i n : at_path h r (p ++ [i]) n -> exists m, at_path h r p m /\ nth_error (kids h m) i = Some n.
Proof.
  intros A. apply at_path_split in A as (m & A & A2). exists m. split; [exact A|]. inversion A2 as [|? ? c ? ? E A3]; subst. inversion A3; subst. exact E.
Qed.

(** From a root, or from anywhere below it: there is one way to a node. *)
Lemma below_unique h r p q n : integrity h -> at_path h r p n -> at_path h r q n -> p = q.
Proof.
  intros I. revert q n. induction p as [|i p IH] using rev_ind; intros q n A1 A2.
  - inversion A1; subst. symmetry. now apply (acyclic h I n).
  - destruct (at_path_snoc h r p i n A1) as (m & A & E). destruct q as [|j q _] using rev_ind.
    + inversion A2; subst. exfalso. assert (X : p ++ [i] = []) by (now apply (acyclic h I n)). destruct p; discriminate.
    + destruct (at_path_snoc h r q j n A2) as (m2 & A' & E').
      assert (m = m2) by (pose proof (i_parent h I m n (nth_error_In _ _ E)); pose proof (i_parent h I m2 n (nth_error_In _ _ E')); congruence). subst m2.
      f_equal; [now apply (IH q m)|]. f_equal. pose proof (find_index_nth _ _ _ (i_once h I m) E). pose proof (find_index_nth _ _ _ (i_once h I m) E'). congruence.
Qed.

(** A node that contains a node of a tree is in that tree. *)
Lemma above_in_tree h r p n d u : integrity h -> par h r = None -> at_path h r p n -> at_path h d u n -> exists w, p = w ++ u /\ at_path h r w d.
Proof.
  intros I RT. revert p n. induction u as [|i u IH] using rev_ind; intros p n A1 A2.
  - inversion A2; subst. exists p. now rewrite app_nil_r.
  - destruct (at_path_snoc h d u i n A2) as (m & A & E). destruct p as [|j p _] using rev_ind.
    + inversion A1; subst. pose proof (i_parent h I m n (nth_error_In _ _ E)). congruence.
    + destruct (at_path_snoc h r p j n A1) as (m2 & A' & E').
      assert (m = m2) by (pose proof (i_parent h I m n (nth_error_In _ _ E)); pose proof (i_parent h I m2 n (nth_error_In _ _ E')); congruence). subst m2.
      destruct (IH p m A' A) as (w & -> & W). exists w. split; [|exact W]. rewrite <- app_assoc. do 3 f_equal.
      pose proof (find_index_nth _ _ _ (i_once h I m) E). pose proof (find_index_nth _ _ _ (i_once h I m) E'). congruence.
Qed.

Lemma visits_iff h n ord P Q ys : (forall p, (exists m, at_path h n p m) -> (P p <-> Q p)) -> visits h n ord P ys -> visits h n ord Q ys.
Proof. intros E (ps & F & S & I). exists ps. split; [exact F|]. split; [exact S|]. intros p. rewrite I. split; intros [X V]; (split; [|exact V]); now apply (E p V). Qed.

Lemma visits_In h n ord P ys m : integrity h -> visits h n ord P ys -> (In m ys <-> exists p, P p /\ at_path h n p m).
Proof.
  intros I (ps & F & _ & E). split.
  - intros J. destruct (Forall2_In_r _ _ _ _ F J) as (p & J2 & A). exists p. split; [now apply E|exact A].
  - intros (p & X & A). assert (J : In p ps) by (apply E; split; [exact X|now exists m]). destruct (Forall2_In_l _ _ _ _ F J) as (m2 & J2 & A2).
    now rewrite (at_path_det h n p m m2 A A2).
Qed.

Lemma visits_NoDup h n ord P ys : integrity h -> (forall p, ~ ord p p) -> visits h n ord P ys -> NoDup ys.
Proof.
  intros I IR (ps & F & S & _). clear P. revert S. induction F as [|p m ps ys A F IH]; intros S; [constructor|]. inversion_clear S as [|? ? S1 S2]. constructor; [|auto].
  intros J. destruct (Forall2_In_r _ _ _ _ F J) as (q & J2 & A2). rewrite (below_unique h n p q m I A A2) in *. rewrite Forall_forall in S2. exact (IR q (S2 q J2)).
Qed.

Lemma before_irrefl p : ~ before p p.
Proof. intros [H|H]; [now apply above_neq in H|now apply left_of_irrefl in H]. Qed.
Lemma mirror_irrefl p : ~ mirror p p.
Proof. intros [H|H]; [now apply above_neq in H|now apply left_of_irrefl in H]. Qed.

Lemma before_asym a b : before a b -> ~ before b a.
Proof.
  intros [A|L] [A2|L2]; [now apply (above_asym a b)|now apply (above_not_left a b A)|now apply (above_not_left b a A2)|].
  apply (left_of_irrefl a). eapply left_of_trans; eauto.
Qed.

Lemma visits_positions h n P ys pa pb a b : integrity h -> visits h n before P ys -> P pa -> P pb -> at_path h n pa a -> at_path h n pb b ->
  (before pa pb <-> exists i j, i < j /\ nth_error ys i = Some a /\ nth_error ys j = Some b).
Proof.
  intros I (ps & F & S & E) PA PB A1 A2. assert (NP : forall i q, nth_error ps i = Some q -> exists m, nth_error ys i = Some m /\ at_path h n q m).
  { clear - F. induction F; intros [|i] q E; cbn in E; try discriminate; [injection E as <-; eexists; split; [reflexivity|assumption]|]. cbn. now apply IHF. }
  assert (NY : forall i m, nth_error ys i = Some m -> exists q, nth_error ps i = Some q /\ at_path h n q m).
  { clear - F. induction F; intros [|i] q E; cbn in E; try discriminate; [injection E as <-; eexists; split; [reflexivity|assumption]|]. cbn. now apply IHF. }
  assert (SN : forall i j p q, i < j -> nth_error ps i = Some p -> nth_error ps j = Some q -> before p q).
  { clear - S. induction S as [|x l S IH G]; intros [|i] [|j] p q L E1 E2; cbn in *; try lia; try discriminate.
    - injection E1 as <-. rewrite Forall_forall in G. apply G. eapply nth_error_In; eauto.
    - eapply IH; [|exact E1|exact E2]. lia. }
  split.
  - intros BF. destruct (In_nth_error ps pa) as [i EI]; [apply E; split; [exact PA|now exists a]|]. destruct (In_nth_error ps pb) as [j EJ]; [apply E; split; [exact PB|now exists b]|].
    exists i, j. destruct (NP i pa EI) as (a' & Ea & Aa). destruct (NP j pb EJ) as (b' & Eb & Ab). rewrite (at_path_det h n pa a a' A1 Aa), (at_path_det h n pb b b' A2 Ab). split; [|auto].
    destruct (Nat.lt_trichotomy i j) as [L|[->|G]]; [exact L| |].
    + rewrite EI in EJ. injection EJ as ->. elim (before_irrefl pb BF).
    + elim (before_asym pa pb BF). eapply SN; eauto.
  - intros (i & j & L & E1 & E2). destruct (NY i a E1) as (p & P1 & Q1). destruct (NY j b E2) as (q & P2 & Q2).
    rewrite (below_unique h n pa p a I A1 Q1), (below_unique h n pb q b I A2 Q2). eapply SN; eauto.
Qed.
End Lemmas.

(** ** C36 *)

(** Integrity holds after every permitted history, from the very beginning. *)
Theorem C36_history : forall {B} (b : B) (es : list (edit B)), history (empty_heap b) es ->
  let h := performs (empty_heap b) es in
  (forall p c, In c (kids h p) -> par h c = Some p) /\
  (forall p q i j c, nth_error (kids h p) i = Some c -> nth_error (kids h q) j = Some c -> p = q /\ i = j) /\
  (forall n p, at_path h n p n -> p = []).
Proof.
  intros B b es H h. assert (I : integrity h) by (apply history_integrity; [apply empty_integrity|exact H]). split; [apply (i_parent h I)|]. split.
  - intros p q i j c E1 E2. assert (p = q) by (pose proof (i_parent h I p c (nth_error_In _ _ E1)); pose proof (i_parent h I q c (nth_error_In _ _ E2)); congruence). subst q.
    split; [reflexivity|]. pose proof (find_index_nth _ _ _ (i_once h I p) E1). pose proof (find_index_nth _ _ _ (i_once h I p) E2). congruence.
  - apply (acyclic h I).
Qed.
Print Assumptions C36_history.

(** The same from any forest with integrity: the notion is preserved by every edit. *)
Theorem C36_preserved : forall {B} (h : heap B) es, integrity h -> history h es -> integrity (performs h es).
Proof. intros. now apply history_integrity. Qed.
Print Assumptions C36_preserved.

(** Every edit changes the list of children of one node, in the way of Python's list, and no other. *)
Theorem C36_effect : forall {B} (h : heap B) e, integrity h ->
  (forall p, target h e = Some p -> effect e (kids h p) (kids (perform h e) p)) /\
  (forall x, target h e <> Some x -> kids (perform h e) x = kids h x).
Proof. intros B h e I. split; [intros; now apply perform_effect|intros; now apply perform_elsewhere]. Qed.
Print Assumptions C36_effect.

(** take() returns what it removes. *)
Theorem C36_take : forall {B} (h : heap B) p i j a m b, part (kids h p) i j a m b ->
  fst (take h p i j) = m /\ kids (fst (snd (take h p i j))) p = a ++ b.
Proof.
  intros B h p i j a m b P. unfold take, del_slice. destruct (slice_bounds (kids h p) i j) as [x y] eqn:E. cbn [fst snd kids set_kids]. rewrite upd_same.
  apply bounds_part in E. destruct (part_det _ _ _ _ _ _ _ _ _ E P) as (<- & <- & <-). split; reflexivity.
Qed.
Print Assumptions C36_take.

(** Wrapping a child in a new node: wrapper.append(child); node[k] = wrapper. *)
Theorem C36_wrap : forall {B} (h : heap B) p k c w, integrity h -> nth_error (kids h p) k = Some c -> w < next h -> ~ listed h w -> kids h w = [] -> p <> w ->
  integrity (fst (set_item (fst (append h w c)) p (Z.of_nat k) w)).
Proof. intros. now apply wrap_integrity. Qed.
Print Assumptions C36_wrap.

(** Replacing a node by itself breaks the tree: its parent becomes the node itself, and ValueError is raised. *)
Theorem C36_replace_self_finding : forall {B} (h : heap B) n, integrity h -> par (fst (replace_with h n n)) n = Some n /\ snd (replace_with h n n) = Some ValueError.
Proof.
  intros B h n I. unfold replace_with. cbn [par kids set_parent]. rewrite upd_same, (not_in_self h n I). cbn. now rewrite upd_same.
Qed.
Print Assumptions C36_replace_self_finding.

(** *** A concrete tree: 4 = (3 = (0, 1), 2), made with some more edits. *)
Definition ex_edits : list (edit nat) :=
  [New 1 10 []; New 1 10 []; New 1 12 []; New 2 13 [0; 1]; New 3 14 [3]; Append 4 2; Take 3 (Some 1%Z) None; Insert 3 0 1; Reverse 3].
Definition ex : heap nat := performs (empty_heap 0) ex_edits.

Lemma history_step {B} (h : heap B) e r : integrity h -> (integrity h -> permitted h e) -> (integrity (perform h e) -> history (perform h e) r) -> history h (e :: r).
Proof. intros I P H. cbn. split; [auto|]. apply H. apply perform_integrity; auto. Qed.
Lemma detached_dec {B} (h : heap B) n : integrity h -> (n <? next h) && forallb (fun p => negb (mem n (kids h p))) (seq 0 (next h)) = true -> detached h n.
Proof.
  intros I E. apply andb_true_iff in E as [L E]. split; [apply Nat.ltb_lt, L|]. intros [p J]. destruct (Nat.lt_ge_cases p (next h)) as [LP|G].
  - rewrite forallb_forall in E. specialize (E p). rewrite in_seq in E. specialize (E ltac:(lia)). apply negb_true_iff in E. apply mem_In in J. congruence.
  - rewrite (proj1 (i_fresh h I p G)) in J. destruct J.
Qed.
Lemma leaf_outside {B} (h : heap B) n p : kids h n = [] -> n <> p -> ~ inside h n p.
Proof. intros K N [q A]. inversion A as [|? i c ? ? E A']; subst; [congruence|]. rewrite K in E. destruct i; discriminate. Qed.

Ltac steps I := lazymatch goal with
  | |- history _ (_ :: _) => apply history_step; [exact I|clear I; intros I; cbn [permitted]|clear I; intros I; steps I]
  | _ => idtac
  end.

Example C36_witness : history (empty_heap 0) ex_edits /\ kids ex 4 = [3; 2] /\ kids ex 3 = [0; 1].
Proof.
  split; [|split; reflexivity]. unfold ex_edits.
  assert (I := empty_integrity 0). steps I.
  7,9,10: exact Logic.I.
  1-3: split; [constructor|intros n []].
  - split; [repeat constructor; cbn; lia|]. intros n [<-|[<-|[]]]; apply detached_dec; auto.
  - split; [repeat constructor; cbn; lia|]. intros n [<-|[]]; apply detached_dec; auto.
  - split; [cbn; lia|]. split; [apply detached_dec; auto|]. apply leaf_outside; [reflexivity|lia].
  - split; [cbn; lia|]. split; [apply detached_dec; auto|]. apply leaf_outside; [reflexivity|lia].
Qed.
Lemma ex_integrity : integrity ex.
Proof. apply C36_preserved; [apply empty_integrity|apply C36_witness]. Qed.
Lemma ex_root : par ex 4 = None.
Proof. reflexivity. Qed.
Ltac at_ex := repeat (econstructor; [reflexivity|]); constructor.
Lemma ex_at0 : at_path ex 4 [0; 0] 0. Proof. at_ex. Qed.
Lemma ex_at1 : at_path ex 4 [0; 1] 1. Proof. at_ex. Qed.
Lemma ex_at2 : at_path ex 4 [1] 2. Proof. at_ex. Qed.
Lemma ex_at3 : at_path ex 4 [0] 3. Proof. at_ex. Qed.

(** ** C37 *)

(** Python's [<] on lists of numbers. *)
Fixpoint list_lt (a b : list nat) : bool :=
  match a, b with
  | _, [] => false
  | [], _ :: _ => true
  | x :: a, y :: b => (x <? y) || ((x =? y) && list_lt a b)
  end.
Lemma list_lt_before a b : list_lt a b = true <-> before a b.
Proof.
  revert b. induction a as [|x a IH]; intros [|y b]; cbn [list_lt].
  - split; [discriminate|]. intros H. elim (before_irrefl [] H).
  - split; [intros _; left; now exists y, b|auto].
  - split; [discriminate|]. intros [(z & r & E)|(p & i & j & r & t & _ & E & _)]; [discriminate|destruct p; discriminate].
  - rewrite orb_true_iff, andb_true_iff, Nat.ltb_lt, Nat.eqb_eq, IH. split.
    + intros [L|[-> [A|L]]]; [right; exists [], x, y, a, b; auto|left; now apply above_cons|right; now apply left_of_cons].
    + intros [A|L].
      * destruct A as (z & r & E). injection E as -> ->. right. split; [reflexivity|]. left. now exists z, r.
      * apply left_of_cases in L as [L|[-> L]]; [now left|right; split; [reflexivity|now right]].
Qed.

(** The trail leads from the root to the node, and is what trail() returns. *)
Theorem C37_trail : forall {B} (h : heap B) r p n, integrity h -> par h r = None -> at_path h r p n ->
  exists f0, forall fuel, f0 <= fuel -> trail fuel h n = Ok p /\ root fuel h n = Ok r.
Proof.
  intros B h r p n I RT A. exists (S (List.length p)). intros fuel L. split; [apply (trail_spec h r p n fuel I RT A); lia|apply (root_spec h r p n fuel I RT A); lia].
Qed.
Print Assumptions C37_trail.

(** Trails compare like positions in the traversal of the whole tree. *)
Theorem C37_order : forall {B} (h : heap B) r a b, integrity h -> par h r = None -> inside h r a -> inside h r b ->
  exists f0 ta tb ys, (forall fuel, f0 <= fuel -> trail fuel h a = Ok ta /\ trail fuel h b = Ok tb /\ descendants fuel h false (fun _ => false) r = Ok ys) /\
    (list_lt ta tb = true <-> exists i j, i < j /\ nth_error (r :: ys) i = Some a /\ nth_error (r :: ys) j = Some b) /\
    (ta = tb <-> a = b).
Proof.
  intros B h r a b I RT [pa A1] [pb A2]. destruct (rep_exists h r I) as ([r' ts] & E & R). cbn in E. subst r'.
  exists (S (List.length pa + List.length pb + List.length (fpre false (fun _ => false) ts))), pa, pb, (fpre false (fun _ => false) ts). split; [|split].
  - intros fuel L. split; [apply (trail_spec h r pa a fuel I RT A1); lia|]. split; [apply (trail_spec h r pb b fuel I RT A2); lia|]. apply descendants_spec; [exact R|lia].
  - rewrite list_lt_before. apply (visits_positions h r (fun _ => True) (r :: fpre false (fun _ => false) ts)); auto.
    destruct (fpp_visits h false (fun _ => false) r ts R) as (ps & F & S & E). exists ([] :: ps). split; [constructor; [constructor|exact F]|]. split.
    + constructor; [exact S|]. rewrite Forall_forall. intros q J. apply E in J as [[J _] _]. left. destruct q as [|x q]; [congruence|]. now exists x, q.
    + intros p. cbn [In]. rewrite E. split; [intros [<-|[_ V]]; (split; [exact Logic.I|]); [exists r; constructor|exact V]|].
      intros [_ V]. destruct p as [|x p]; [now left|right]. split; [|exact V]. split; [discriminate|]. intros (q & m & _ & _ & _ & X). discriminate.
  - split; [intros ->; eapply at_path_det; eauto|intros ->; eapply path_unique; eauto].
Qed.
Print Assumptions C37_order.

Example C37_witness : integrity ex /\ par ex 4 = None /\ at_path ex 4 [0; 1] 1 /\ trail 9 ex 1 = Ok [0; 1] /\ descendants 9 ex false (fun _ => false) 4 = Ok [3; 0; 1; 2].
Proof. split; [apply ex_integrity|]. split; [reflexivity|]. split; [apply ex_at1|]. split; reflexivity. Qed.

(** A removed node keeps its parent, and then trail() fails. *)
Example C37_stale_finding : let h := fst (del_item ex 4 0) in integrity h /\ par h 3 = Some 4 /\ trail 9 h 0 = Err ValueError /\ trail 9 (set_parent h 3 None) 0 = Ok [0].
Proof. split; [apply (C36_preserved ex [DelItem 4 0]); [apply ex_integrity|cbn; auto]|]. repeat split. Qed.

(** ** C38 *)

(** Forwards: pre-order; [prune] are the nodes after which False is sent. *)
Theorem C38_descendants : forall {B} (h : heap B) prune n, integrity h ->
  exists f0 ys, (forall fuel, f0 <= fuel -> descendants fuel h false prune n = Ok ys) /\ NoDup ys /\
    visits h n before (fun p => p <> [] /\ ~ cut h n (fun q => q <> []) prune p) ys.
Proof.
  intros B h prune n I. destruct (rep_exists h n I) as ([n' ts] & E & R). cbn in E. subst n'. assert (V := fpp_visits h false prune n ts R).
  exists (S (List.length (fpre false prune ts))), (fpre false prune ts). split; [intros fuel L; apply descendants_spec; [exact R|lia]|].
  split; [|exact V]. eapply visits_NoDup; [exact I|exact before_irrefl|exact V].
Qed.
Print Assumptions C38_descendants.

(** Backwards: the mirror order. *)
Theorem C38_reverse : forall {B} (h : heap B) prune n, integrity h ->
  exists f0 ys, (forall fuel, f0 <= fuel -> descendants fuel h true prune n = Ok ys) /\ NoDup ys /\
    visits h n mirror (fun p => p <> [] /\ ~ cut h n (fun q => q <> []) prune p) ys.
Proof.
  intros B h prune n I. destruct (rep_exists h n I) as ([n' ts] & E & R). cbn in E. subst n'. assert (V := fpp_visits h true prune n ts R).
  exists (S (List.length (fpre true prune ts))), (fpre true prune ts). split; [intros fuel L; apply descendants_spec; [exact R|lia]|].
  split; [|exact V]. eapply visits_NoDup; [exact I|exact mirror_irrefl|exact V].
Qed.
Print Assumptions C38_reverse.

(** Without pruning: exactly the nodes below. *)
Theorem C38_all : forall {B} (h : heap B) rv n, integrity h ->
  exists f0 ys, (forall fuel, f0 <= fuel -> descendants fuel h rv (fun _ => false) n = Ok ys) /\ NoDup ys /\
    forall m, In m ys <-> inside h n m /\ m <> n.
Proof.
  intros B h rv n I. assert (X : exists f0 ys, (forall fuel, f0 <= fuel -> descendants fuel h rv (fun _ => false) n = Ok ys) /\ NoDup ys /\
      exists ord, visits h n ord (fun p => p <> [] /\ ~ cut h n (fun q => q <> []) (fun _ => false) p) ys).
  { destruct rv; [destruct (C38_reverse h (fun _ => false) n I) as (f0 & ys & ? & ? & ?)|destruct (C38_descendants h (fun _ => false) n I) as (f0 & ys & ? & ? & ?)]; exists f0, ys; eauto. }
  destruct X as (f0 & ys & E & ND & ord & V). exists f0, ys. split; [exact E|]. split; [exact ND|]. intros m. rewrite (visits_In h n ord _ ys m I V). split.
  - intros (p & [NE _] & A). split; [now exists p|]. intros ->. apply NE. now apply (acyclic h I n).
  - intros [[p A] NE]. exists p. split; [|exact A]. split; [intros ->; inversion A; congruence|]. intros (q & x & _ & _ & _ & X). discriminate.
Qed.
Print Assumptions C38_all.

(** filter() and instances_of(): the matching nodes, without looking inside them. *)
Lemma visits_filter {B} (h : heap B) n ord P ys (f : nat -> bool) : visits h n ord P ys -> visits h n ord (fun p => P p /\ exists m, at_path h n p m /\ f m = true) (filter f ys).
Proof.
  intros (ps & F & S & E).
  assert (X : exists qs, Forall2 (at_path h n) qs (filter f ys) /\ StronglySorted ord qs /\ forall p, In p qs <-> In p ps /\ exists m, at_path h n p m /\ f m = true).
  { clear E P. induction F as [|p m ps ys A F IH]; [exists []; cbn [filter]; split; [constructor|split; [constructor|cbn; tauto]]|]. inversion_clear S as [|? ? S1 S2]. destruct (IH S1) as (qs & F2 & S3 & E2).
    cbn [filter]. destruct (f m) eqn:FM.
    - exists (p :: qs). split; [now constructor|]. split; [constructor; [exact S3|]; rewrite Forall_forall in *; intros q J; apply E2 in J; apply S2; tauto|].
      intros q. cbn [In]. rewrite E2. split; [intros [<-|[J M]]; [split; [now left|now exists m]|split; [now right|exact M]]|]. intros [[<-|J] M]; [now left|right; auto].
    - exists qs. split; [exact F2|]. split; [exact S3|]. intros q. cbn [In]. rewrite E2. split; [tauto|]. intros [[<-|J] M]; [|auto].
      destruct M as (m2 & A2 & M2). rewrite (at_path_det h n p m m2 A A2) in FM. congruence. }
  destruct X as (qs & F2 & S2 & E2). exists qs. split; [exact F2|]. split; [exact S2|]. intros p. rewrite E2, E. tauto.
Qed.

Theorem C38_filter : forall {B} (h : heap B) f n, integrity h ->
  exists f0 ys, (forall fuel, f0 <= fuel -> filter_nodes fuel h f n = Ok ys) /\
    visits h n before (fun p => p <> [] /\ ~ cut h n (fun q => q <> []) f p /\ exists m, at_path h n p m /\ f m = true) ys.
Proof.
  intros B h f n I. destruct (C38_descendants h f n I) as (f0 & ys & E & _ & V). exists f0, (filter f ys). split.
  - intros fuel L. unfold filter_nodes. apply filter_run. apply E, L.
  - eapply visits_iff; [|apply visits_filter, V]. intros p _. tauto.
Qed.
Print Assumptions C38_filter.

Example C38_witness : integrity ex /\ descendants 9 ex false (fun n => n =? 3) 4 = Ok [3; 2] /\ descendants 9 ex true (fun _ => false) 4 = Ok [2; 3; 1; 0] /\
  filter_nodes 9 ex (fun n => cls ex n =? 1) 4 = Ok [0; 1; 2].
Proof. split; [apply ex_integrity|]. repeat split. Qed.

(** ** C39 *)

(** forward(): in document order, what comes after the node and its descendants;
    only within the ancestor [u] (or the node itself) if given. *)
Theorem C39_forward : forall {B} (h : heap B) prune r p n upto pu, integrity h -> par h r = None -> at_path h r p n ->
  (upto = None /\ pu = []) \/ (exists u s, upto = Some u /\ at_path h r pu u /\ p = pu ++ s) ->
  exists f0 ys, (forall fuel, f0 <= fuel -> forward fuel h prune upto n = Ok ys) /\
    visits h r before (fun x => left_of p x /\ (exists s, x = pu ++ s) /\ ~ cut h r (left_of p) prune x) ys.
Proof.
  intros B h prune r p n upto pu I RT A U. apply (walk_spec h false prune r p n I RT A upto pu).
  destruct U as [U|(u & s & E1 & E2 & E3)]; [now left|right; exists u; split; [exact E1|]; split; [exact E2|now exists s]].
Qed.
Print Assumptions C39_forward.

Theorem C39_backward : forall {B} (h : heap B) prune r p n upto pu, integrity h -> par h r = None -> at_path h r p n ->
  (upto = None /\ pu = []) \/ (exists u s, upto = Some u /\ at_path h r pu u /\ p = pu ++ s) ->
  exists f0 ys, (forall fuel, f0 <= fuel -> backward fuel h prune upto n = Ok ys) /\
    visits h r mirror (fun x => left_of x p /\ (exists s, x = pu ++ s) /\ ~ cut h r (fun q => left_of q p) prune x) ys.
Proof.
  intros B h prune r p n upto pu I RT A U. apply (walk_spec h true prune r p n I RT A upto pu).
  destruct U as [U|(u & s & E1 & E2 & E3)]; [now left|right; exists u; split; [exact E1|]; split; [exact E2|now exists s]].
Qed.
Print Assumptions C39_backward.

(** The five parts of the tree. *)
Theorem C39_partition : forall {B} (h : heap B) r n, integrity h -> par h r = None -> inside h r n ->
  exists f0 anc desc fwd bwd, (forall fuel, f0 <= fuel ->
      ancestors fuel h n = Ok anc /\ descendants fuel h false (fun _ => false) n = Ok desc /\
      forward fuel h (fun _ => false) None n = Ok fwd /\ backward fuel h (fun _ => false) None n = Ok bwd) /\
    NoDup (n :: anc ++ desc ++ fwd ++ bwd) /\ forall m, In m (n :: anc ++ desc ++ fwd ++ bwd) <-> inside h r m.
Proof.
  intros B h r n I RT [p A]. destruct (awi_spec h r p n (S (List.length p)) I RT A ltac:(lia)) as (l & E1 & _ & _ & FA).
  destruct (C38_descendants h (fun _ => false) n I) as (f1 & desc & ED & ND & VD).
  destruct (C39_forward h (fun _ => false) r p n None [] I RT A ltac:(auto)) as (f2 & fwd & EF & VF).
  destruct (C39_backward h (fun _ => false) r p n None [] I RT A ltac:(auto)) as (f3 & bwd & EB & VB).
  assert (EA : forall fuel, S (List.length p) <= fuel -> ancestors fuel h n = Ok (map fst l)).
  { intros fuel L. destruct (awi_spec h r p n fuel I RT A ltac:(lia)) as (l2 & E2 & _ & _ & F2). rewrite E2. f_equal.
    clear - FA F2. revert FA F2. generalize (ups p) (map fst l) (map fst l2). induction l0 as [|q qs IH]; intros xs ys F G; inversion F; inversion G; subst; [reflexivity|].
    f_equal; [eapply at_path_det; eauto|now apply IH]. }
  exists (S (List.length p) + f1 + f2 + f3), (map fst l), desc, fwd, bwd. split; [intros fuel L; repeat split; [apply EA|apply ED|apply EF|apply EB]; lia|].
  assert (MA : forall m q, at_path h r q m -> (In m (map fst l) <-> above q p)) by (intros m q AQ; now apply (mem_ancestors h r p (map fst l) m q)).
  assert (NC : forall x Q y, ~ cut h x Q (fun _ => false) y) by (intros x Q y (q & m & _ & _ & _ & X); discriminate).
  assert (MD : forall m q, at_path h r q m -> (In m desc <-> above p q)).
  { intros m q AQ. rewrite (visits_In h n _ _ desc m I VD). split.
    - intros (s & [NE _] & AS). destruct s as [|x s]; [congruence|]. exists x, s. eapply path_unique; [exact I|exact RT|exact AQ|]. eapply at_path_app; eauto.
    - intros (x & s & ->). apply at_path_split in AQ as (n' & AN & AS). assert (n' = n) by (eapply at_path_det; eauto). subst n'. exists (x :: s). split; [|exact AS]. split; [discriminate|apply NC]. }
  assert (MF : forall m q, at_path h r q m -> (In m fwd <-> left_of p q)).
  { intros m q AQ. rewrite (visits_In h r _ _ fwd m I VF). split; [intros (q' & [L _] & AQ'); now rewrite (path_unique h r q q' m I RT AQ AQ')|].
    intros L. exists q. split; [|exact AQ]. split; [exact L|]. split; [now exists q|apply NC]. }
  assert (MB : forall m q, at_path h r q m -> (In m bwd <-> left_of q p)).
  { intros m q AQ. rewrite (visits_In h r _ _ bwd m I VB). split; [intros (q' & [L _] & AQ'); now rewrite (path_unique h r q q' m I RT AQ AQ')|].
    intros L. exists q. split; [|exact AQ]. split; [exact L|]. split; [now exists q|apply NC]. }
  assert (IT : forall m, In m (n :: map fst l ++ desc ++ fwd ++ bwd) -> exists q, at_path h r q m).
  { intros m. cbn [In]. rewrite !in_app_iff. intros [<-|[J|[J|[J|J]]]].
    - now exists p.
    - destruct (Forall2_In_r _ _ _ _ FA J) as (q & _ & Q). now exists q.
    - apply (visits_In h n _ _ desc m I VD) in J as (s & _ & AS). exists (p ++ s). eapply at_path_app; eauto.
    - apply (visits_In h r _ _ fwd m I VF) in J as (s & _ & AS). now exists s.
    - apply (visits_In h r _ _ bwd m I VB) in J as (s & _ & AS). now exists s. }
  assert (DJ : forall (X Y : list nat), NoDup X -> NoDup Y -> (forall m, In m X -> In m Y -> False) -> NoDup (X ++ Y)).
  { intros X Y NX NY D. induction NX as [|x X N NX IH]; [exact NY|]. cbn. constructor.
    - rewrite in_app_iff. intros [J|J]; [tauto|]. apply (D x); [now left|exact J].
    - apply IH. intros m J K. apply (D m); [now right|exact K]. }
  assert (NF : NoDup fwd) by (eapply visits_NoDup; [exact I|exact before_irrefl|exact VF]).
  assert (NB : NoDup bwd) by (eapply visits_NoDup; [exact I|exact mirror_irrefl|exact VB]).
  assert (NA : NoDup (map fst l)).
  { clear - FA I RT. revert FA. generalize (map fst l). intros xs FA. assert (NU : NoDup (ups p)).
    { clear. induction p as [|i p IH] using rev_ind; [constructor|]. rewrite ups_snoc. constructor; [|exact IH]. rewrite ups_In. intros X. now apply above_neq in X. }
    revert NU. induction FA as [|q x qs xs AQ FA IH]; intros NU; [constructor|]. inversion_clear NU as [|? ? N1 N2]. constructor; [|auto].
    intros J. destruct (Forall2_In_r _ _ _ _ FA J) as (q2 & J2 & A2). rewrite (path_unique h r q q2 x I RT AQ A2) in N1. tauto. }
  split.
  - change (n :: map fst l ++ desc ++ fwd ++ bwd) with ([n] ++ map fst l ++ desc ++ fwd ++ bwd).
    apply DJ; [repeat constructor; intros []| |].
    + apply DJ; [exact NA| |].
      * apply DJ; [exact ND|apply DJ; auto|].
        { intros m J K. destruct (IT m ltac:(right; rewrite !in_app_iff; tauto)) as [q Q]. rewrite (MF m q Q) in J. rewrite (MB m q Q) in K. apply (left_of_irrefl p). eapply left_of_trans; eauto. }
        intros m J K. destruct (IT m ltac:(right; rewrite !in_app_iff; tauto)) as [q Q]. rewrite in_app_iff, (MF m q Q), (MB m q Q) in K. rewrite (MD m q Q) in J. apply above_not_left in J. tauto.
      * intros m J K. destruct (IT m ltac:(right; rewrite !in_app_iff; tauto)) as [q Q]. rewrite !in_app_iff, (MF m q Q), (MB m q Q), (MD m q Q) in K. rewrite (MA m q Q) in J.
        destruct (above_not_left _ _ J). pose proof (above_asym _ _ J). tauto.
    + intros m [<-|[]] K. rewrite !in_app_iff, (MF n p A), (MB n p A), (MD n p A), (MA n p A) in K. pose proof (left_of_irrefl p). assert (~ above p p) by (intros X; now apply above_neq in X). tauto.
  - intros m. split; [apply IT|]. intros [q Q]. cbn [In]. rewrite !in_app_iff, (MF m q Q), (MB m q Q), (MD m q Q), (MA m q Q).
    destruct (path_cases q p) as [->|[X|[X|[X|X]]]]; [left; eapply at_path_det; eauto|tauto|tauto|tauto|tauto].
Qed.
Print Assumptions C39_partition.

(** The next and previous siblings. *)
Theorem C39_siblings : forall {B} (h : heap B) p i n, integrity h -> nth_error (kids h p) i = Some n ->
  right_sibling h n = Ok (nth_error (kids h p) (S i)) /\
  left_sibling h n = Ok (match i with O => None | S j => nth_error (kids h p) j end) /\
  right_siblings h n = Ok (skipn (S i) (kids h p)) /\ left_siblings h n = Ok (rev (firstn i (kids h p))).
Proof.
  intros B h p i n I E. destruct (siblings_spec h p n i I E) as [R L]. split; [|split; [|split; [exact R|exact L]]].
  - unfold right_sibling. rewrite (i_parent h I p n) by (now apply nth_error_In in E). destruct (rev (kids h p)) as [|x l] eqn:RV.
    + apply (f_equal (@rev nat)) in RV. rewrite rev_involutive in RV. rewrite RV in E. destruct i; discriminate.
    + rewrite (find_index_nth n (kids h p) i (i_once h I p) E). apply (f_equal (@rev nat)) in RV. rewrite rev_involutive in RV. cbn [rev] in RV.
      destruct (Nat.eqb_spec x n) as [->|NE]; [|reflexivity]. f_equal. symmetry. apply nth_error_None.
      assert (X : nth_error (kids h p) (List.length (rev l)) = Some n) by (rewrite RV, nth_error_app2, Nat.sub_diag by lia; reflexivity).
      pose proof (find_index_nth _ _ _ (i_once h I p) X) as X1. rewrite (find_index_nth _ _ _ (i_once h I p) E) in X1. injection X1 as ->. rewrite RV, app_length. cbn. lia.
  - unfold left_sibling. rewrite (i_parent h I p n) by (now apply nth_error_In in E). destruct (kids h p) as [|x l] eqn:K; [destruct i; discriminate|].
    rewrite <- K in *. rewrite (find_index_nth n (kids h p) i (i_once h I p) E).
    assert (X : nth_error (kids h p) 0 = Some x) by (now rewrite K). destruct (Nat.eqb_spec x n) as [->|NE].
    + pose proof (find_index_nth _ _ _ (i_once h I p) X) as X1. rewrite (find_index_nth _ _ _ (i_once h I p) E) in X1. injection X1 as ->. reflexivity.
    + destruct i as [|i]; [congruence|]. cbn [Nat.sub]. now rewrite Nat.sub_0_r.
Qed.
Print Assumptions C39_siblings.

(** First, last and root. *)
Theorem C39_first_last : forall {B} (h : heap B) n, integrity h ->
  (is_root h n = true <-> par h n = None) /\ (par h n = None -> is_first h n = Err TypeError /\ is_last h n = Err TypeError) /\
  forall p i, nth_error (kids h p) i = Some n -> is_first h n = Ok (i =? 0) /\ is_last h n = Ok (S i =? List.length (kids h p)).
Proof.
  intros B h n I. split; [unfold is_root; destruct (par h n); split; congruence|]. split; [intros E; unfold is_first, is_last; rewrite E; auto|]. intros p i E.
  assert (PA : par h n = Some p) by (apply (i_parent h I); eapply nth_error_In; exact E). unfold is_first, is_last. rewrite PA. pose proof (find_index_nth n (kids h p) i (i_once h I p) E) as F.
  assert (U : forall j, nth_error (kids h p) j = Some n -> j = i). { intros j J. pose proof (find_index_nth n (kids h p) j (i_once h I p) J) as F'. rewrite F in F'. injection F' as ->. reflexivity. }
  assert (LT : i < List.length (kids h p)) by (apply nth_error_Some; rewrite E; discriminate). split.
  - destruct (kids h p) as [|x l]; [destruct i; discriminate|]. f_equal. destruct (Nat.eqb_spec x n) as [->|NE]; symmetry; [apply Nat.eqb_eq; symmetry; apply U; reflexivity|]. apply Nat.eqb_neq. intros ->. injection E. congruence.
  - destruct (rev (kids h p)) as [|x l] eqn:RV; apply (f_equal (@rev nat)) in RV; rewrite rev_involutive in RV; cbn [rev] in RV; rewrite RV in *; [destruct i; discriminate|]. f_equal. rewrite app_length in *. cbn [List.length] in *.
    assert (X : nth_error (rev l ++ [x]) (List.length (rev l)) = Some x) by (rewrite nth_error_app2, Nat.sub_diag by lia; reflexivity). destruct (Nat.eqb_spec x n) as [->|NE]; symmetry.
    + apply Nat.eqb_eq. rewrite (U _ X). lia.
    + apply Nat.eqb_neq. intros L. assert (i = List.length (rev l)) by lia. subst i. rewrite X in E. congruence.
Qed.
Print Assumptions C39_first_last.
Example C39_first_witness : is_root ex 4 = true /\ is_first ex 0 = Ok true /\ is_first ex 1 = Ok false /\ is_last ex 1 = Ok true /\ is_last ex 4 = Err TypeError.
Proof. repeat split. Qed.

Example C39_witness : integrity ex /\ par ex 4 = None /\ inside ex 4 0 /\ forward 9 ex (fun _ => false) None 0 = Ok [1; 2] /\ forward 9 ex (fun _ => false) (Some 3) 0 = Ok [1] /\
  backward 9 ex (fun _ => false) None 2 = Ok [3; 1; 0] /\ nth_error (kids ex 3) 0 = Some 0.
Proof. split; [apply ex_integrity|]. split; [reflexivity|]. split; [exists [0; 0]; apply ex_at0|]. repeat split. Qed.

(** ** C40 *)

Lemma split_paths (pa pb : list nat) : exists c x y, pa = c ++ x /\ pb = c ++ y /\ diverge x y.
Proof.
  revert pb. induction pa as [|i pa IH]; intros pb; [exists [], [], pb; repeat split|]. destruct pb as [|j pb]; [exists [], (i :: pa), []; repeat split|].
  destruct (Nat.eq_dec i j) as [->|N].
  - destruct (IH pb) as (c & x & y & -> & -> & D). exists (j :: c), x, y. auto.
  - exists [], (i :: pa), (j :: pb). auto.
Qed.

Theorem C40_common : forall {B} (h : heap B) r a b, integrity h -> par h r = None -> inside h r a -> inside h r b ->
  exists f0 m x y, (forall fuel, f0 <= fuel ->
      common_ancestor fuel h a b = Ok (Some m) /\ common_ancestor fuel h b a = Ok (Some m) /\
      common_ancestor_with_trail fuel h a b = Ok (Some (m, x, y)) /\ common_ancestor_with_trail fuel h b a = Ok (Some (m, y, x))) /\
    at_path h m x a /\ at_path h m y b /\ diverge x y /\
    (forall d, inside h d a -> inside h d b -> inside h d m).
Proof.
  intros B h r a b I RT [pa A1] [pb A2]. destruct (split_paths pa pb) as (c & x & y & -> & -> & D).
  destruct (at_path_split h r c x a A1) as (m & AM & AX). assert (AY : at_path h m y b).
  { apply at_path_split in A2 as (m2 & AM2 & AY). now rewrite (at_path_det h r c m m2 AM AM2). }
  assert (D' : diverge y x) by (destruct x, y; cbn in *; auto).
  exists (S (List.length (c ++ x) + List.length (c ++ y))), m, x, y. split; [|split; [exact AX|split; [exact AY|split; [exact D|]]]].
  - intros fuel L. split; [apply (common_ancestor_spec h r c x y); auto; lia|]. split; [apply (common_ancestor_spec h r c y x); auto; lia|].
    split; [apply (with_trail_spec h r c x y); auto; lia|apply (with_trail_spec h r c y x); auto; lia].
  - intros d [u U] [v V]. destruct (above_in_tree h r _ a d u I RT A1 U) as (w & E1 & W1). destruct (above_in_tree h r _ b d v I RT A2 V) as (w2 & E2 & W2).
    rewrite <- (path_unique h r w w2 d I RT W1 W2) in E2. clear W2 w2.
    assert (X : exists s, c = w ++ s).
    { clear - E1 E2 D. revert c E1 E2. induction w as [|i w IH]; intros c E1 E2; [now exists c|]. destruct c as [|j c].
      - cbn in E1, E2. subst x y. cbn in D. congruence.
      - cbn in E1, E2. injection E1 as -> E1. injection E2 as E2. destruct (IH c E1 E2) as [s ->]. now exists s. }
    destruct X as [s ->]. apply at_path_split in AM as (d2 & AD & AS). rewrite (at_path_det h r w d d2 W1 AD). now exists s.
Qed.
Print Assumptions C40_common.

Theorem C40_disjoint : forall {B} (h : heap B) r1 r2 a b, integrity h -> par h r1 = None -> par h r2 = None -> r1 <> r2 -> inside h r1 a -> inside h r2 b ->
  exists f0, forall fuel, f0 <= fuel -> common_ancestor fuel h a b = Ok None /\ common_ancestor_with_trail fuel h a b = Ok None.
Proof.
  intros B h r1 r2 a b I R1 R2 N [p1 A1] [p2 A2]. exists (S (List.length p1 + List.length p2)). intros fuel L.
  apply (disjoint_trees h r1 r2 p1 p2 a b fuel I R1 R2 N A1 A2); lia.
Qed.
Print Assumptions C40_disjoint.

Example C40_witness : integrity ex /\ par ex 4 = None /\ inside ex 4 1 /\ inside ex 4 2 /\ common_ancestor_with_trail 9 ex 1 2 = Ok (Some (4, [0; 1], [1])) /\
  common_ancestor_with_trail 9 ex 3 1 = Ok (Some (3, [], [1])) /\
  common_ancestor 9 (fst (new_node ex 7 7 [])) 1 5 = Ok None.
Proof. split; [apply ex_integrity|]. split; [reflexivity|]. split; [exists [0; 1]; apply ex_at1|]. split; [exists [1]; apply ex_at2|]. repeat split. Qed.

(** ** C41 *)

Theorem C41_depth : forall {B} (h : heap B) r p n, integrity h -> par h r = None -> at_path h r p n ->
  exists f0, forall fuel, f0 <= fuel -> depth fuel h n = Ok (List.length p).
Proof. intros B h r p n I RT A. exists (S (List.length p)). intros fuel L. apply (depth_spec h r p n fuel I RT A). lia. Qed.
Print Assumptions C41_depth.

Theorem C41_height : forall {B} (h : heap B) n, integrity h ->
  exists f0 k, (forall fuel, f0 <= fuel -> height fuel h n = Ok k) /\
    (exists p m, at_path h n p m /\ List.length p = k) /\ (forall p m, at_path h n p m -> List.length p <= k).
Proof.
  intros B h n I. destruct (rep_exists h n I) as (t & <- & R). exists (S (2 * tsize t)), (th t). split; [intros fuel L; apply height_spec; [exact R|lia]|]. now apply th_path.
Qed.
Print Assumptions C41_height.

Example C41_witness : integrity ex /\ depth 9 ex 1 = Ok 2 /\ height 20 ex 4 = Ok 2 /\ height 20 ex 0 = Ok 0.
Proof. split; [apply ex_integrity|]. repeat split. Qed.

(** ** C42 *)

Theorem C42_equals : forall {B} (beq : B -> B -> bool) (h : heap B) a b, integrity h ->
  exists f0 v, (forall fuel, f0 <= fuel -> equals beq fuel h a b = Ok v) /\ (v = true <-> alike (same_node beq h h) h a h b).
Proof.
  intros B beq h a b I. destruct (rep_exists h a I) as (t & <- & R). destruct (equals_spec beq h t b (S (th t)) R ltac:(lia)) as (v & _ & V). exists (S (th t)), v. split; [|exact V].
  intros fuel L. destruct (equals_spec beq h t b fuel R ltac:(lia)) as (w & E & W). rewrite E. f_equal. destruct v, w; auto; [apply W, V; reflexivity|symmetry; apply V, W; reflexivity].
Qed.
Print Assumptions C42_equals.

(** An equivalence, if the comparison of bodies is. *)
Theorem C42_equivalence : forall {B} (beq : B -> B -> bool) (h : heap B),
  (forall x, beq x x = true) -> (forall x y, beq x y = true -> beq y x = true) -> (forall x y z, beq x y = true -> beq y z = true -> beq x z = true) ->
  let eq a b := alike (same_node beq h h) h a h b in
  (forall a, eq a a) /\ (forall a b, eq a b -> eq b a) /\ (forall a b c, eq a b -> eq b c -> eq a c).
Proof.
  intros B beq h R S T eq. unfold eq, alike, same_node. split; [|split].
  - intros a. split; [tauto|]. intros p x y A1 A2. rewrite (at_path_det h a p x y A1 A2). auto.
  - intros a b [V L]. split; [intros p; symmetry; apply V|]. intros p x y A1 A2. destruct (L p y x A2 A1). split; [congruence|auto].
  - intros a b c [V1 L1] [V2 L2]. split; [intros p; rewrite V1; apply V2|]. intros p x z A1 A2. destruct (proj1 (V1 p) (ex_intro _ x A1)) as [y A3].
    destruct (L1 p x y A1 A3), (L2 p y z A3 A2). split; [congruence|eauto].
Qed.
Print Assumptions C42_equivalence.

(** copy(): nodes of its own, the same structure with the same classes and bodies, and nothing that existed is changed. *)
Theorem C42_copy : forall {B} (h : heap B) n, integrity h -> n < next h ->
  exists f0 h' m, (forall fuel, f0 <= fuel -> copy fuel h n = Ok (h', m)) /\
    integrity h' /\ untouched h h' /\ par h' m = None /\ (forall x, inside h' m x -> next h <= x < next h') /\
    alike (fun x y => cls h x = cls h' y /\ body h x = body h' y) h n h' m.
Proof.
  intros B h n I L. destruct (rep_exists h n I) as (t & <- & R).
  destruct (copy_spec t h (S (th t)) I R L ltac:(lia)) as (h' & m & E & ML & U & I' & P & A & N). exists (S (th t)), h', m. split; [|split; [exact I'|split; [exact U|split; [exact P|split; [|exact A]]]]].
  - assert (MONO : forall f g (hh : heap B) k z, f <= g -> copy f hh k = Ok z -> copy g hh k = Ok z).
    { induction f as [|f IH]; intros g hh k z LE C; [discriminate|]. destruct g as [|g]; [lia|]. cbn [copy] in *.
      match type of C with context [bindr (?F1 hh (kids hh k)) _] => set (go1 := F1) in C end. match goal with |- context [bindr (?F2 hh (kids hh k)) _] => set (go2 := F2) end.
      assert (GG : forall l h1 w, go1 h1 l = Ok w -> go2 h1 l = Ok w).
      { induction l as [|x l IHl]; intros h1 w; cbn [go1 go2]; [auto|]. destruct (copy f h1 x) as [[h2 y]|] eqn:C1; [|discriminate]. rewrite (IH g h1 x _ ltac:(lia) C1). cbn [bindr].
        destruct (go1 h2 l) as [[h3 r]|] eqn:C2; [|discriminate]. rewrite (IHl h2 _ C2). auto. }
      destruct (go1 hh (kids hh k)) as [w|] eqn:C1; [|discriminate]. rewrite (GG _ _ _ C1). exact C. }
    intros fuel LF. eapply MONO; [exact LF|exact E].
  - intros x [p AP]. split; [eapply N; eauto|]. apply (proj2 (old_path h' h' m p x I' (fun _ _ => eq_refl) ltac:(lia)) AP).
Qed.
Print Assumptions C42_copy.

(** So that the copy equals the original. *)
Theorem C42_copy_equals : forall {B} (beq : B -> B -> bool) (h : heap B) n, integrity h -> n < next h -> (forall x, beq x x = true) ->
  exists f0 h' m, forall fuel, f0 <= fuel -> copy fuel h n = Ok (h', m) /\ equals beq fuel h' m n = Ok true.
Proof.
  intros B beq h n I L R. destruct (C42_copy h n I L) as (f0 & h' & m & E & I' & U & _ & _ & [V T]).
  destruct (C42_equals beq h' m n I') as (f1 & v & E2 & X). exists (f0 + f1), h', m. intros fuel LF. split; [apply E; lia|]. rewrite E2 by lia. f_equal. apply X.
  assert (OP := fun p u => old_path h h' n p u I (fun x X => proj1 (U x X)) L). split.
  - intros p. rewrite <- V. split; intros [x A]; exists x; now apply OP.
  - intros p x y A1 A2. apply OP in A2. destruct (T p y x A2 A1) as [T1 T2]. destruct (U y (proj2 (OP p y) A2)) as (_ & _ & UC & UB). split; [congruence|]. rewrite UB, T2. apply R.
Qed.
Print Assumptions C42_copy_equals.

Example C42_witness : integrity ex /\ 4 < next ex /\ (match copy 9 ex 4 with Ok (h, m) => m = 9 /\ kids h 9 = [7; 8] /\ kids h 7 = [5; 6] /\ equals Nat.eqb 9 h 9 4 = Ok true | Err _ => False end) /\
  equals Nat.eqb 9 ex 0 1 = Ok true /\ equals Nat.eqb 9 ex 0 2 = Ok false.
Proof. split; [apply ex_integrity|]. split; [cbn; lia|]. repeat split. Qed.
