(** Proofs about node trees: integrity and navigation. *)
From Coq Require Import List ZArith Bool PeanoNat Relations Sorting.Sorted Lia.
From Verif Require Import Base Node_Model Node_Spec.
Import ListNotations.

Section Integrity.
Context {B : Type}.
Implicit Types h : heap B.

Lemma upd_same {A} (f : nat -> A) k v : upd f k v k = v.
Proof. unfold upd. now rewrite Nat.eqb_refl. Qed.
Lemma upd_other {A} (f : nat -> A) k v n : n <> k -> upd f k v n = f n.
Proof. unfold upd. intros N. destruct (Nat.eqb_spec n k); congruence. Qed.

Lemma at_path_ext h h' x p y : (forall n, kids h n = kids h' n) -> at_path h x p y -> at_path h' x p y.
Proof. intros E A. induction A; [constructor|]. econstructor; [rewrite <- E; eassumption|assumption]. Qed.

Lemma at_path_app h x y z q r : at_path h x q y -> at_path h y r z -> at_path h x (q ++ r) z.
Proof. intros A. induction A; cbn; [auto|]. intros. econstructor; eauto. Qed.

Lemma at_path_split h x q r z : at_path h x (q ++ r) z -> exists y, at_path h x q y /\ at_path h y r z.
Proof.
  revert x. induction q as [|i q IH]; cbn; intros x A; [exists x; split; [constructor|exact A]|].
  inversion A as [|? ? c ? ? E A']; subst. apply IH in A' as (y & A1 & A2). exists y. split; [|exact A2]. econstructor; eauto.
Qed.

Lemma inside_refl h n : inside h n n.
Proof. exists []. constructor. Qed.
Lemma inside_child h n c p : In c (kids h n) -> inside h c p -> inside h n p.
Proof. intros I [q A]. apply In_nth_error in I as [i E]. exists (i :: q). econstructor; eauto. Qed.

(** Giving a node another list of children. *)
Lemma relink h h' p l : integrity h -> (p < next h \/ l = []) ->
  (forall n, kids h' n = if Nat.eqb n p then l else kids h n) -> next h' = next h ->
  NoDup l -> (forall n, In n l -> In n (kids h p) \/ may_add h p n) ->
  (forall n, In n l -> par h' n = Some p) ->
  (forall n q, q <> p -> In n (kids h q) -> par h' n = par h n) -> integrity h'.
Proof.
  intros I F K NX ND ADD P1 P2. split.
  - intros q c. rewrite K. destruct (Nat.eqb_spec q p) as [->|N]; [apply P1|]. intros C. rewrite (P2 c q N C). now apply (i_parent h I).
  - intros q. rewrite K. destruct (Nat.eqb_spec q p); [exact ND|apply (i_once h I)].
  - assert (A1 : forall n, ~ inside h n p -> Acc (fun c q => In c (kids h' q)) n).
    { intros n. induction (i_finite h I n) as [n _ IH]. intros NI. constructor. intros c. rewrite K.
      destruct (Nat.eqb_spec n p) as [->|N]; [elim NI; apply inside_refl|]. intros C. apply IH; [exact C|].
      intros X. apply NI. eapply inside_child; eauto. }
    intros n. induction (i_finite h I n) as [n _ IH]. constructor. intros c. rewrite K.
    destruct (Nat.eqb_spec n p) as [->|N]; [|apply IH]. intros C. destruct (ADD c C) as [O|[_ O]]; [now apply IH|now apply A1].
  - intros n L. rewrite NX in L. rewrite K. destruct (i_fresh h I n L) as [E NL]. split.
    + destruct (Nat.eqb_spec n p) as [->|]; [|exact E]. destruct F; [lia|assumption].
    + intros [q C]. rewrite K in C. destruct (Nat.eqb_spec q p) as [Q|N]; [subst q|apply NL; now exists q].
      destruct (ADD n C) as [O|[[O _] _]]; [apply NL; now exists p|lia].
Qed.

Lemma set_parents_kids h ns p : kids (set_parents h ns p) = kids h /\ next (set_parents h ns p) = next h /\
  cls (set_parents h ns p) = cls h /\ body (set_parents h ns p) = body h.
Proof. revert h. induction ns as [|n ns IH]; intros h; cbn; [auto|]. unfold set_parents in IH. destruct (IH (set_parent h n (Some p))) as (A & C & D & E). rewrite A, C, D, E. auto. Qed.

Lemma set_parents_par h ns p n : par (set_parents h ns p) n = if in_dec Nat.eq_dec n ns then Some p else par h n.
Proof.
  revert h. induction ns as [|x ns IH]; intros h; cbn [set_parents fold_left]; [reflexivity|]. unfold set_parents in IH. rewrite IH. cbn [par set_parent].
  destruct (in_dec Nat.eq_dec n ns), (in_dec Nat.eq_dec n (x :: ns)) as [J|J]; cbn in J; try tauto.
  - destruct J as [->|]; [now rewrite upd_same|tauto].
  - rewrite upd_other; [reflexivity|]. intros ->. tauto.
Qed.

Lemma splice_In {A} (l : list A) a b new x : In x (splice l a b new) -> In x l \/ In x new.
Proof.
  unfold splice. rewrite !in_app_iff. intros [I|[I|I]]; auto; left.
  - rewrite <- (firstn_skipn a l). apply in_or_app. now left.
  - rewrite <- (firstn_skipn b l). apply in_or_app. now right.
Qed.

Lemma NoDup_app {A} (l m : list A) : NoDup (l ++ m) <-> NoDup l /\ NoDup m /\ forall x, In x l -> ~ In x m.
Proof.
  induction l as [|a l IH]; cbn [app]; [split; [intros; repeat split; auto; constructor|tauto]|].
  split.
  - intros N. inversion_clear N as [|? ? N1 N2]. apply IH in N2 as (P & Q & R). rewrite in_app_iff in N1. repeat split; [constructor; tauto|exact Q|].
    intros x [->|I]; [tauto|now apply R].
  - intros (P & Q & R). inversion_clear P as [|? ? N1 N2]. constructor; [rewrite in_app_iff; intros [I|I]; [tauto|apply (R a); cbn; auto]|].
    apply IH. repeat split; auto. intros x I. apply R. now right.
Qed.

Lemma skipn_skipn {A} (l : list A) a b : skipn a (skipn b l) = skipn (a + b) l.
Proof. revert l. induction b as [|b IH]; intros l; [now rewrite Nat.add_0_r|]. rewrite Nat.add_succ_r. destruct l; cbn [skipn]; [now rewrite !skipn_nil|apply IH]. Qed.

Lemma slice_split {A} (l : list A) a b : a <= b -> l = firstn a l ++ slice l a b ++ skipn b l.
Proof.
  intros L. unfold slice. rewrite <- (firstn_skipn a l) at 1. f_equal.
  replace (skipn b l) with (skipn (b - a) (skipn a l)); [now rewrite firstn_skipn|].
  rewrite skipn_skipn. f_equal. lia.
Qed.

Lemma splice_NoDup {A} (l : list A) a b new : a <= b -> NoDup l -> NoDup new ->
  (forall x, In x new -> In x (slice l a b) \/ ~ In x l) -> NoDup (splice l a b new).
Proof.
  intros L N M H. unfold splice. rewrite (slice_split l a b L) in N. apply NoDup_app in N as (N1 & N2 & N3). apply NoDup_app in N2 as (N2 & N4 & N5).
  apply NoDup_app. split; [exact N1|]. split.
  - apply NoDup_app. split; [exact M|]. split; [exact N4|]. intros x I J. destruct (H x I) as [K|K]; [apply (N5 x K J)|].
    apply K. rewrite <- (firstn_skipn b l). apply in_or_app. now right.
  - intros x I. rewrite in_app_iff. intros [J|J].
    + destruct (H x J) as [K|K]; [apply (N3 x I); apply in_or_app; now left|]. apply K. rewrite <- (firstn_skipn a l). apply in_or_app. now left.
    + apply (N3 x I). apply in_or_app. now right.
Qed.

Lemma slice_bounds_le {A} (l : list A) i j : let (a, b) := slice_bounds l i j in a <= b.
Proof. unfold slice_bounds. lia. Qed.

Lemma position_lt {A} (l : list A) i k : position l i = Some k -> k < List.length l.
Proof. unfold position. destruct (_ && _)%bool eqn:E; [|discriminate]. intros [= <-]. destruct (i <? 0)%Z; lia. Qed.

Lemma may_add_not_listed h p n q : may_add h p n -> ~ In n (kids h q).
Proof. intros [[_ D] _] I. apply D. now exists q. Qed.

(** Removing children. *)
Lemma unlink_integrity h p a b : a <= b -> integrity h -> integrity (set_kids h p (splice (kids h p) a b [])).
Proof.
  intros L I. assert (S : forall x, In x (splice (kids h p) a b []) -> In x (kids h p)) by (intros x X; apply splice_In in X as [X|[]]; exact X).
  eapply (relink h _ p (splice (kids h p) a b [])).
  - exact I.
  - destruct (Nat.lt_ge_cases p (next h)) as [X|X]; [now left|right]. rewrite (proj1 (i_fresh h I p X)). unfold splice. now rewrite firstn_nil, skipn_nil.
  - reflexivity.
  - reflexivity.
  - apply splice_NoDup; [exact L|apply (i_once h I)|constructor|intros x []].
  - auto.
  - intros n X. apply (i_parent h I). auto.
  - auto.
Qed.

(** Adding nodes. *)
Lemma link_integrity h h' p a b ns : integrity h -> p < next h -> a <= b -> NoDup ns ->
  (forall n, In n ns -> may_add h p n \/ In n (slice (kids h p) a b)) ->
  (forall n, kids h' n = if Nat.eqb n p then splice (kids h p) a b ns else kids h n) -> next h' = next h ->
  (forall n, par h' n = if in_dec Nat.eq_dec n ns then Some p else par h n) -> integrity h'.
Proof.
  intros I L AB ND ADD K NX P.
  assert (SL : forall n, In n (slice (kids h p) a b) -> In n (kids h p)).
  { intros n X. rewrite (slice_split (kids h p) a b AB). apply in_or_app. right. apply in_or_app. now left. }
  apply (relink h h' p (splice (kids h p) a b ns)); auto.
  - apply splice_NoDup; [exact AB|apply (i_once h I)|exact ND|]. intros x X. destruct (ADD x X) as [M|M]; [right; now apply may_add_not_listed with p|now left].
  - intros n X. apply splice_In in X as [X|X]; [now left|]. destruct (ADD n X); auto.
  - intros n X. rewrite P. destruct (in_dec Nat.eq_dec n ns) as [Y|Y]; [reflexivity|]. apply splice_In in X as [X|X]; [now apply (i_parent h I)|tauto].
  - intros n q N X. rewrite P. destruct (in_dec Nat.eq_dec n ns) as [Y|Y]; [|reflexivity]. destruct (ADD n Y) as [M|M].
    + elim (may_add_not_listed _ _ _ q M X).
    + apply SL in M. elim N. eapply listed_once; eauto.
Qed.

Lemma set_item_integrity h p i n : integrity h -> p < next h -> may_add h p n -> integrity (fst (set_item h p i n)).
Proof.
  intros I L M. unfold set_item. cbn [kids set_parent]. destruct (position (kids h p) i) as [k|] eqn:E; cbn [fst].
  - apply (link_integrity h _ p k (S k) [n]); auto.
    + repeat constructor; intros [].
    + intros x [<-|[]]. now left.
    + intros x. cbn [par set_kids set_parent]. destruct (in_dec Nat.eq_dec x [n]) as [J|J]; cbn in J.
      * destruct J as [->|[]]. now rewrite upd_same.
      * apply upd_other. intros ->. tauto.
  - apply (relink h _ p (kids h p)); auto; cbn [kids set_parent next par].
    + intros x. now destruct (Nat.eqb_spec x p) as [->|].
    + apply (i_once h I).
    + intros x X. rewrite upd_other; [now apply (i_parent h I)|]. intros ->. now apply (may_add_not_listed _ _ _ p M).
    + intros x q _ X. apply upd_other. intros ->. now apply (may_add_not_listed _ _ _ q M).
Qed.

(** Changing the parent of a node that is in no list. *)
Lemma reparent_integrity h n p : integrity h -> ~ listed h n -> integrity (set_parent h n p).
Proof.
  intros I D. apply (relink h _ 0 (kids h 0)); auto; cbn [kids set_parent next par].
  - destruct (Nat.lt_ge_cases 0 (next h)) as [X|X]; [now left|right]. now rewrite (proj1 (i_fresh h I 0 X)).
  - intros x. now destruct (Nat.eqb_spec x 0) as [->|].
  - apply (i_once h I).
  - intros x X. rewrite upd_other; [now apply (i_parent h I)|]. intros ->. apply D. now exists 0.
  - intros x q _ X. apply upd_other. intros ->. apply D. now exists q.
Qed.

Lemma find_index_spec n l k : find_index n l = Some k -> nth_error l k = Some n.
Proof.
  revert k. induction l as [|x l IH]; intros k; cbn [find_index]; [discriminate|].
  destruct (Nat.eqb_spec x n) as [->|]; [now intros [= <-]|]. destruct (find_index n l); [|discriminate]. intros [= <-]. now apply IH.
Qed.
Lemma find_index_nth n l k : NoDup l -> nth_error l k = Some n -> find_index n l = Some k.
Proof.
  revert k. induction l as [|x l IH]; intros k N E; [now destruct k|]. inversion_clear N as [|? ? N1 N2]. cbn [find_index].
  destruct k as [|k]; cbn [nth_error] in E.
  - injection E as ->. now rewrite Nat.eqb_refl.
  - destruct (Nat.eqb_spec x n) as [->|]; [apply nth_error_In in E; tauto|]. now rewrite (IH k N2 E).
Qed.
Lemma find_index_none n l : find_index n l = None <-> ~ In n l.
Proof.
  induction l as [|x l IH]; cbn [find_index In]; [tauto|]. destruct (Nat.eqb_spec x n) as [->|N]; [split; [discriminate|tauto]|].
  destruct (find_index n l); cbn; [split; [discriminate|]|]; intuition. discriminate.
Qed.

Lemma new_integrity h c b l : integrity h -> NoDup l -> (forall n, In n l -> detached h n) -> integrity (fst (new_node h c b l)).
Proof.
  intros I ND D. unfold new_node. cbn [fst]. set (n := next h). set (h1 := Heap _ _ _ _ _).
  destruct (i_fresh h I n ltac:(unfold n; lia)) as [KN LN].
  assert (K1 : forall x, kids h1 x = if Nat.eqb x n then l else kids h x) by reflexivity.
  destruct (set_parents_kids h1 l n) as (K & NX & _).
  (* the new node first without children *)
  set (h0 := Heap (kids h) (upd (par h) n None) (upd (cls h) n c) (upd (body h) n b) (S n)).
  assert (I0 : integrity h0).
  { split.
    - intros p x X. cbn [par h0]. rewrite upd_other; [now apply (i_parent h I)|]. intros ->. apply LN. now exists p.
    - apply (i_once h I).
    - apply (i_finite h I).
    - intros x X. cbn [next h0] in X. apply (i_fresh h I x). unfold n in X. lia. }
  apply (link_integrity h0 _ n 0 0 l I0); auto.
  - intros x X. left. destruct (D x X) as [L U]. split; [split; [cbn; lia|exact U]|].
    intros [p A]. destruct p as [|i p] using rev_ind.
    + inversion A; subst. unfold n in L. lia.
    + apply at_path_split in A as (y & _ & A). inversion A as [|? ? z ? ? E A2]; subst. inversion A2; subst. apply LN. exists y. now apply nth_error_In in E.
  - intros x. rewrite K, K1. cbn [kids h0]. rewrite KN. unfold splice. cbn [firstn skipn app]. now rewrite app_nil_r.
  - intros x. rewrite set_parents_par. reflexivity.
Qed.

Lemma perform_integrity h e : integrity h -> permitted h e -> integrity (perform h e).
Proof.
  intros I. destruct e; cbn [perform permitted]; intros P.
  - destruct P. now apply new_integrity.
  - destruct P as [L M]. unfold append. cbn [fst kids set_parent].
    apply (link_integrity h _ p (List.length (kids h p)) (List.length (kids h p)) [n]); auto.
    + repeat constructor; intros [].
    + intros x [<-|[]]. now left.
    + intros x. cbn [kids set_kids]. unfold upd, splice. now rewrite firstn_all, skipn_all.
    + intros x. cbn [par set_kids set_parent]. destruct (in_dec Nat.eq_dec x [n]) as [J|J]; cbn in J.
      * destruct J as [->|[]]. now rewrite upd_same.
      * apply upd_other. intros ->. tauto.
  - destruct P as (L & ND & M). unfold extend. cbn [fst]. set (h1 := set_kids h p _).
    replace (skipn (List.length (kids h p)) (kids h1 p)) with ns.
    2:{ unfold h1. cbn [kids set_kids]. rewrite upd_same, skipn_app, skipn_all, Nat.sub_diag. reflexivity. }
    destruct (set_parents_kids h1 ns p) as (K & NX & _).
    apply (link_integrity h _ p (List.length (kids h p)) (List.length (kids h p)) ns); auto.
    + intros x. rewrite K. cbn [h1 kids set_kids]. unfold upd, splice. now rewrite firstn_all, skipn_all, app_nil_r.
    + intros x. now rewrite set_parents_par.
  - destruct P as [L M]. unfold insert. cbn [fst kids set_parent]. set (k := Z.to_nat _).
    apply (link_integrity h _ p k k [n]); auto.
    + repeat constructor; intros [].
    + intros x [<-|[]]. now left.
    + intros x. cbn [par set_kids set_parent]. destruct (in_dec Nat.eq_dec x [n]) as [J|J]; cbn in J.
      * destruct J as [->|[]]. now rewrite upd_same.
      * apply upd_other. intros ->. tauto.
  - destruct P as [L M]. now apply set_item_integrity.
  - destruct P as (L & ND & M). unfold set_slice. destruct (set_parents_kids h ns p) as (K & NX & _). rewrite K.
    pose proof (slice_bounds_le (kids h p) i j) as LE. destruct (slice_bounds (kids h p) i j) as [a b]. cbn [fst].
    apply (link_integrity h _ p a b ns); auto.
    + intros x. cbn [kids set_kids]. unfold upd. now rewrite K.
    + intros x. cbn [par set_kids]. now rewrite set_parents_par.
  - unfold del_item. destruct (position (kids h p) i); cbn [fst]; [apply unlink_integrity; auto|exact I].
  - unfold del_slice. pose proof (slice_bounds_le (kids h p) i j) as LE. destruct (slice_bounds (kids h p) i j). cbn [fst]. now apply unlink_integrity.
  - unfold take, del_slice. pose proof (slice_bounds_le (kids h p) i j) as LE. destruct (slice_bounds (kids h p) i j). cbn [fst snd]. now apply unlink_integrity.
  - unfold pop, del_item. destruct (position (kids h p) i); cbn [fst]; [apply unlink_integrity; auto|exact I].
  - unfold remove. destruct (find_index n (kids h p)); cbn [fst]; [apply unlink_integrity; auto|exact I].
  - unfold clear. cbn [fst]. pose proof (unlink_integrity h p 0 (List.length (kids h p)) ltac:(lia) I) as X. unfold splice in X. now rewrite skipn_all in X.
  - unfold reverse. cbn [fst]. apply (relink h _ p (rev (kids h p))); auto.
    + destruct (Nat.lt_ge_cases p (next h)) as [X|X]; [now left|right]. now rewrite (proj1 (i_fresh h I p X)).
    + apply NoDup_rev. apply (i_once h I).
    + intros x X. left. now apply in_rev.
    + intros x X. apply (i_parent h I). now apply in_rev.
  - destruct P as (D & N & NE). unfold replace_with. cbn [par set_parent]. rewrite upd_other by congruence.
    assert (I1 : integrity (set_parent h n (Some self))) by (apply reparent_integrity; [exact I|apply D]).
    destruct (par h self) as [p|] eqn:E; [|exact I1]. cbn [kids set_parent].
    destruct (find_index self (kids h p)) as [k|] eqn:FI; [|exact I1].
    apply set_item_integrity; [exact I1| |].
    + cbn. destruct (Nat.lt_ge_cases p (next h)) as [X|X]; [exact X|]. rewrite (proj1 (i_fresh h I p X)) in FI. discriminate.
    + split; [exact D|]. intros [q A]. apply (N p eq_refl). exists q. revert A. now apply at_path_ext.
  - apply reparent_integrity; [exact I|apply P].
Qed.

Lemma empty_integrity (b : B) : integrity (empty_heap b).
Proof. split; cbn; try (intros; tauto); [constructor|intros n; constructor; intros ? []|]. intros n _. split; [reflexivity|]. intros [p []]. Qed.

Lemma history_integrity h es : integrity h -> history h es -> integrity (performs h es).
Proof.
  revert h. induction es as [|e es IH]; intros h I; cbn; [auto|]. intros [P H]. apply IH; [|exact H]. now apply perform_integrity.
Qed.

(** Wrapping: first the child gets a new parent, then that parent takes its place. *)
Lemma wrap_integrity h p k c w : integrity h -> nth_error (kids h p) k = Some c -> w < next h -> ~ listed h w -> kids h w = [] -> p <> w ->
  integrity (fst (set_item (fst (append h w c)) p (Z.of_nat k) w)).
Proof.
  intros I E L U KW NE. assert (LP : p < next h).
  { destruct (Nat.lt_ge_cases p (next h)) as [X|X]; [exact X|]. rewrite (proj1 (i_fresh h I p X)) in E. now destruct k. }
  assert (KL : k < List.length (kids h p)) by (apply nth_error_Some; congruence).
  assert (IC : In c (kids h p)) by (now apply nth_error_In in E).
  assert (CW : c <> w) by (intros ->; apply U; now exists p).
  (* first take the child out, then add it to the new parent, and that to the old *)
  set (h1 := set_kids h p (splice (kids h p) k (S k) [])).
  assert (I1 : integrity h1) by (apply unlink_integrity; auto).
  assert (SP : kids h p = firstn k (kids h p) ++ c :: skipn (S k) (kids h p)).
  { pose proof (slice_split (kids h p) k (S k) ltac:(lia)) as X. unfold slice in X. replace (S k - k) with 1 in X by lia.
    destruct (nth_error_split _ _ E) as (l1 & l2 & X1 & X2). rewrite X1 in X |- *. rewrite <- X2 in X |- *.
    rewrite firstn_app, Nat.sub_diag, firstn_all. cbn [firstn]. rewrite app_nil_r.
    f_equal. f_equal. clear. induction l1; [reflexivity|exact IHl1]. }
  assert (ND := i_once h I p). rewrite SP in ND. apply NoDup_remove_2 in ND.
  assert (C1 : may_add h1 w c).
  { split; [split|].
    - cbn. destruct (Nat.lt_ge_cases c (next h)) as [X|X]; [exact X|]. elim (proj2 (i_fresh h I c X)). now exists p.
    - intros [q C]. unfold h1 in C. cbn [kids set_kids] in C. unfold upd in C. destruct (Nat.eqb_spec q p) as [Q|N]; [subst q|].
      + apply ND. exact C.
      + apply N. exact (listed_once h q p c I C IC).
    - intros [q A]. destruct q as [|i q] using rev_ind; [inversion A; congruence|].
      apply at_path_split in A as (y & _ & A). inversion A as [|? ? z ? ? E1 A2]; subst. inversion A2; subst.
      apply nth_error_In in E1. apply U. unfold h1 in E1. cbn [kids set_kids] in E1. unfold upd in E1. destruct (Nat.eqb_spec y p) as [->|N]; [|now exists y].
      apply splice_In in E1 as [E1|[]]. now exists p. }
  set (h2 := fst (append h1 w c)).
  assert (I2 : integrity h2) by (apply (perform_integrity h1 (Append w c)); [exact I1|]; split; [exact L|exact C1]).
  assert (K2 : forall x, kids h2 x = if Nat.eqb x w then [c] else if Nat.eqb x p then splice (kids h p) k (S k) [] else kids h x).
  { intros x. unfold h2, append, h1. cbn [fst kids set_kids set_parent]. unfold upd. destruct (Nat.eqb_spec x w) as [->|]; [|reflexivity].
    destruct (Nat.eqb_spec w p); [congruence|]. now rewrite KW. }
  unfold set_item. cbn [append fst kids set_kids set_parent]. rewrite upd_other by exact NE.
  unfold position. replace (Z.of_nat k <? 0)%Z with false by lia. replace ((0 <=? Z.of_nat k) && (Z.of_nat k <? Z.of_nat (List.length (kids h p))))%Z with true by lia.
  rewrite Nat2Z.id. cbn [fst].
  apply (relink h2 _ p (splice (kids h p) k (S k) [w])); auto.
  - intros x. cbn [kids set_kids set_parent]. rewrite K2. unfold upd. destruct (Nat.eqb_spec x p) as [->|]; [reflexivity|].
    destruct (Nat.eqb_spec x w) as [->|]; [now rewrite KW|reflexivity].
  - apply splice_NoDup; [lia|apply (i_once h I)|repeat constructor; intros []|]. intros x [<-|[]]. right. intros X. apply U. now exists p.
  - intros x X. rewrite K2. rewrite Nat.eqb_refl. destruct (Nat.eqb_spec p w); [congruence|]. unfold splice in X |- *. rewrite !in_app_iff in X |- *.
    destruct X as [X|[[<-|[]]|X]]; [tauto| |tauto]. right. split; [split; [exact L|]|].
    + intros [q C]. rewrite K2 in C. destruct (Nat.eqb_spec q w) as [Q|]; [subst q; destruct C as [C|[]]; congruence|].
      apply U. destruct (Nat.eqb_spec q p) as [Q|]; [subst q|now exists q]. apply splice_In in C as [C|[]]. now exists p.
    + intros [q A]. inversion A as [|? i z r ? E1 A2]; subst; [congruence|]. rewrite K2, Nat.eqb_refl in E1. destruct i as [|[|i]]; cbn in E1; try discriminate.
      injection E1 as <-.
      (* p inside c in h2: then in h, and then p is inside itself *)
      assert (A3 : forall r x, at_path h2 x r p -> ~ inside h x w -> at_path h x r p \/ inside h x p).
      { clear - K2 U. induction r as [|i r IH]; intros x A NW; inversion A as [|? ? c0 ? ? H1 H3]; subst; [left; constructor|].
        rewrite K2 in H1. destruct (Nat.eqb_spec x w) as [->|]; [elim NW; apply inside_refl|].
        destruct (Nat.eqb_spec x p) as [->|]; [right; apply inside_refl|].
        destruct (IH c0 H3) as [Y|Y].
        - intros Y. apply NW. eapply inside_child; [|exact Y]. now apply nth_error_In in H1.
        - left. econstructor; eauto.
        - right. eapply inside_child; [|exact Y]. now apply nth_error_In in H1. }
      assert (NCW : ~ inside h c w).
      { intros [q A4]. destruct q as [|j q] using rev_ind; [inversion A4; congruence|].
        apply at_path_split in A4 as (y & _ & A4). inversion A4 as [|? ? z ? ? E1 A5]; subst. inversion A5; subst. apply U. exists y. now apply nth_error_In in E1. }
      assert (PC : inside h c p) by (destruct (A3 r c A2 NCW) as [Y|Y]; [now exists r|exact Y]).
      destruct PC as [q PC]. assert (Y : at_path h p (k :: q) p) by (econstructor; eauto). apply (acyclic h I) in Y. discriminate.
  - intros x X. cbn [par set_kids set_parent]. destruct (Nat.eq_dec x w) as [->|N]; [now rewrite upd_same|].
    rewrite upd_other by exact N. rewrite upd_other.
    + apply (i_parent h I). apply splice_In in X as [X|[X|[]]]; [exact X|congruence].
    + intros ->. unfold splice in X. rewrite !in_app_iff in X. rewrite in_app_iff in ND. cbn [In] in X. intuition.
  - intros x q N X. cbn [par set_kids set_parent]. unfold h2, append. cbn [fst par set_kids set_parent h1].
    destruct (Nat.eq_dec x w) as [->|NW]; [|now rewrite upd_other].
    exfalso. rewrite K2 in X. destruct (Nat.eqb_spec q w) as [Q|]; [subst q; destruct X as [X|[]]; congruence|]. destruct (Nat.eqb_spec q p); [congruence|]. apply U. now exists q.
Qed.
End Integrity.
