(** Proofs about node trees: what the edits do to the children. *)
From Coq Require Import List ZArith Bool PeanoNat Sorting.Sorted Lia ZifyBool ZifyNat.
From Verif Require Import Base Node_Model Node_Spec Node_Proofs Node_Nav.
Import ListNotations.

Section Edits.
Context {B : Type}.
Implicit Types h : heap B.

Lemma bounds_bound (l : list nat) i j : slice_bounds l i j = (bound l i 0, Nat.max (bound l i 0) (bound l j (List.length l))).
Proof.
  unfold slice_bounds, bound, clamp. f_equal; destruct i as [i|], j as [j|];
    repeat match goal with |- context [if ?c then _ else _] => destruct c eqn:? end; lia.
Qed.
Lemma bound_le (l : list nat) i d : d <= List.length l -> bound l i d <= List.length l.
Proof. unfold bound. destruct i as [i|]; [|auto]. destruct (0 <=? i)%Z; lia. Qed.
Lemma bounds_part (l : list nat) i j a b : slice_bounds l i j = (a, b) -> part l i j (firstn a l) (slice l a b) (skipn b l).
Proof.
  rewrite bounds_bound. intros [= <- <-]. unfold part. pose proof (bound_le l i 0 ltac:(lia)). pose proof (bound_le l j (List.length l) ltac:(lia)).
  split; [apply slice_split; lia|]. split; [rewrite firstn_length; lia|]. unfold slice. rewrite firstn_length, skipn_length. lia.
Qed.
Lemma part_det (l : list nat) i j a m b a' m' b' : part l i j a m b -> part l i j a' m' b' -> a = a' /\ m = m' /\ b = b'.
Proof.
  intros (E & L1 & L2) (E' & L1' & L2'). rewrite E in E'. clear E. assert (LA : List.length a = List.length a') by congruence. assert (LM : List.length m = List.length m') by congruence.
  clear L1 L2 L1' L2'. revert a' E' LA. induction a as [|x a IH]; intros [|y a'] E LA; cbn in LA; try lia.
  - cbn [app] in E. split; [reflexivity|]. revert m' E LM. induction m as [|x m IH]; intros [|y m'] E LM; cbn in LM; try lia; [auto|].
    cbn [app] in E. injection E as -> E. destruct (IH m' E ltac:(lia)) as [-> ->]. auto.
  - cbn [app] in E. injection E as -> E. destruct (IH a' E ltac:(lia)) as (-> & -> & ->). auto.
Qed.
Lemma position_item (l : list nat) i k : position l i = Some k <-> exists a x b, item l i a x b /\ List.length a = k.
Proof.
  unfold position, item. split.
  - intros E. destruct ((0 <=? (if i <? 0 then i + Z.of_nat (List.length l) else i)) && ((if i <? 0 then i + Z.of_nat (List.length l) else i) <? Z.of_nat (List.length l)))%Z eqn:C; [|discriminate].
    injection E as E. destruct (nth_error l k) as [x|] eqn:N.
    + exists (firstn k l), x, (skipn (S k) l). assert (K : k < List.length l) by (apply nth_error_Some; congruence). split; [|rewrite firstn_length; lia].
      split; [|rewrite firstn_length; destruct (i <? 0)%Z eqn:?; lia].
      rewrite <- (firstn_skipn k l) at 1. f_equal. clear - N. revert l N. induction k; intros [|y l] N; try discriminate; [cbn in *; congruence|now apply IHk].
    + apply nth_error_None in N. destruct (i <? 0)%Z eqn:?; lia.
  - intros (a & x & b & (-> & H) & <-). rewrite !app_length in *. cbn [List.length] in *.
    destruct (i <? 0)%Z eqn:?; [replace (0 <=? i + Z.of_nat (List.length a + S (List.length b)))%Z with true by lia; replace (i + Z.of_nat (List.length a + S (List.length b)) <? Z.of_nat (List.length a + S (List.length b)))%Z with true by lia
      |replace (0 <=? i)%Z with true by lia; replace (i <? Z.of_nat (List.length a + S (List.length b)))%Z with true by lia]; cbn [andb]; f_equal; lia.
Qed.
Lemma splice_at (a : list nat) x b new : splice (a ++ x :: b) (List.length a) (S (List.length a)) new = a ++ new ++ b.
Proof.
  unfold splice. rewrite firstn_app, firstn_all, Nat.sub_diag. cbn [firstn]. rewrite app_nil_r.
  replace (skipn (S (List.length a)) (a ++ x :: b)) with b; [reflexivity|]. rewrite skipn_app, skipn_all2 by lia. replace (S (List.length a) - List.length a) with 1 by lia. reflexivity.
Qed.

Lemma set_kids_kids h p l x : kids (set_kids h p l) x = if Nat.eqb x p then l else kids h x.
Proof. reflexivity. Qed.

Lemma item_none (l : list nat) i : position l i = None -> forall a x b, ~ item l i a x b.
Proof. intros E a x b I. assert (X : position l i = Some (List.length a)) by (apply position_item; exists a, x, b; auto). congruence. Qed.

Lemma position_part_effects (l l' : list nat) i new :
  (forall k, position l i = Some k -> l' = splice l k (S k) new) -> (position l i = None -> l' = l) ->
  (forall a x b, item l i a x b -> l' = a ++ new ++ b) /\ ((forall a x b, ~ item l i a x b) -> l' = l).
Proof.
  intros H1 H2. split.
  - intros a x b I. rewrite (H1 (List.length a)); [destruct I as [-> _]; apply splice_at|]. apply position_item. exists a, x, b. auto.
  - intros N. destruct (position l i) as [k|] eqn:E; [|auto]. apply position_item in E as (a & x & b & I & _). elim (N a x b I).
Qed.

Lemma not_in_self h n : integrity h -> find_index n (kids h n) = None.
Proof.
  intros I. apply find_index_none. intros J. apply In_nth_error in J as [i E].
  assert (X : [i] = []); [|discriminate]. apply (acyclic h I n). econstructor; [exact E|constructor].
Qed.

Lemma perform_effect h e p : integrity h -> target h e = Some p -> effect e (kids h p) (kids (perform h e) p).
Proof.
  intros I. destruct e; cbn [target]; intros E; try discriminate; try (injection E as <-); cbn [perform effect].
  - destruct (set_parents_kids (Heap (upd (kids h) (next h) children) (upd (par h) (next h) None) (upd (cls h) (next h) c) (upd (body h) (next h) b) (S (next h))) children (next h)) as [X _].
    unfold new_node. cbn [fst]. rewrite X. cbn [kids]. apply upd_same.
  - unfold append. cbn [fst kids set_kids set_parent]. now rewrite upd_same.
  - unfold extend. cbn [fst]. rewrite (proj1 (set_parents_kids _ _ _)). cbn [kids set_kids]. now rewrite upd_same.
  - unfold insert. cbn [fst kids set_kids set_parent]. rewrite upd_same. set (l := kids h p0).
    assert (BD : Z.to_nat (clamp (Z.of_nat (List.length l)) i) = bound l (Some i) 0) by (pose proof (bounds_bound l (Some i) None) as X; unfold slice_bounds in X; congruence).
    exists (firstn (bound l (Some i) 0) l), (skipn (bound l (Some i) 0) l). split; [now rewrite firstn_skipn|]. split; [rewrite firstn_length; pose proof (bound_le l (Some i) 0 ltac:(lia)); lia|].
    rewrite BD. reflexivity.
  - apply (position_part_effects _ _ i [n]); unfold set_item; cbn [kids set_parent]; intros; rewrite H; cbn [fst kids set_kids set_parent]; [now rewrite upd_same|reflexivity].
  - unfold set_slice. destruct (set_parents_kids h ns p0) as [X _]. destruct (slice_bounds (kids (set_parents h ns p0) p0) i j) as [a b] eqn:SB. cbn [fst kids set_kids]. rewrite upd_same. rewrite X in *.
    exists (firstn a (kids h p0)), (slice (kids h p0) a b), (skipn b (kids h p0)). split; [now apply bounds_part|reflexivity].
  - apply (position_part_effects _ _ i []); unfold del_item; intros; rewrite H; cbn [fst kids set_kids]; [now rewrite upd_same|reflexivity].
  - unfold del_slice. destruct (slice_bounds (kids h p0) i j) as [a b] eqn:SB. cbn [fst kids set_kids]. rewrite upd_same.
    exists (firstn a (kids h p0)), (slice (kids h p0) a b), (skipn b (kids h p0)). split; [now apply bounds_part|reflexivity].
  - unfold take, del_slice. destruct (slice_bounds (kids h p0) i j) as [a b] eqn:SB. cbn [fst snd kids set_kids]. rewrite upd_same.
    exists (firstn a (kids h p0)), (slice (kids h p0) a b), (skipn b (kids h p0)). split; [now apply bounds_part|reflexivity].
  - apply (position_part_effects _ _ i []); unfold pop, del_item; intros; rewrite H; cbn [fst kids set_kids]; [now rewrite upd_same|reflexivity].
  - unfold remove. destruct (find_index n (kids h p0)) as [k|] eqn:F; cbn [fst kids set_kids].
    + split; [intros N; apply (proj2 (find_index_none n (kids h p0))) in N; congruence|]. rewrite upd_same. intros a b E.
      assert (K := find_index_nth n (kids h p0) (List.length a) (i_once h I p0) ltac:(rewrite E, nth_error_app2, Nat.sub_diag by lia; reflexivity)).
      rewrite K in F. injection F as <-. rewrite E. apply splice_at.
    + split; [auto|]. intros a b E. exfalso. apply (proj1 (find_index_none n (kids h p0)) F). rewrite E. apply in_or_app. right. now left.
  - unfold clear. cbn [fst kids set_kids]. now rewrite upd_same.
  - unfold reverse. cbn [fst kids set_kids]. now rewrite upd_same.
  - intros a b EK. unfold replace_with. cbn [par kids set_parent]. 
    assert (J : In self (kids h p)) by (rewrite EK; apply in_or_app; right; now left).
    assert (K := find_index_nth self (kids h p) (List.length a) (i_once h I p) ltac:(rewrite EK, nth_error_app2, Nat.sub_diag by lia; reflexivity)).
    unfold upd at 1. destruct (Nat.eqb_spec self n) as [->|NE].
    + (* replacing a node by itself *) rewrite (not_in_self h n I). cbn. exact EK.
    + rewrite E, K. unfold set_item. cbn [kids set_parent].
      replace (position (kids h p) (Z.of_nat (List.length a))) with (Some (List.length a)).
      2:{ symmetry. apply position_item. exists a, self, b. unfold item. auto. }
      cbn [fst kids set_kids set_parent]. rewrite upd_same, EK. apply (splice_at a self b [n]).
Qed.

Lemma perform_elsewhere h e x : integrity h -> target h e <> Some x -> kids (perform h e) x = kids h x.
Proof.
  assert (SK : forall g p l, p <> x -> kids (set_kids g p l) x = kids (B:=B) g x) by (intros; cbn; apply upd_other; congruence).
  intros I. destruct e; cbn [target perform]; intros N.
  - unfold new_node. cbn [fst]. rewrite (proj1 (set_parents_kids _ _ _)). cbn [kids]. apply upd_other. congruence.
  - unfold append. cbn [fst]. rewrite SK by congruence. reflexivity.
  - unfold extend. cbn [fst]. rewrite (proj1 (set_parents_kids _ _ _)), SK by congruence. reflexivity.
  - unfold insert. cbn [fst]. rewrite SK by congruence. reflexivity.
  - unfold set_item. destruct (position _ _); cbn [fst]; [rewrite SK by congruence|]; reflexivity.
  - unfold set_slice. destruct (slice_bounds _ _ _). cbn [fst]. rewrite SK by congruence. now rewrite (proj1 (set_parents_kids _ _ _)).
  - unfold del_item. destruct (position _ _); cbn [fst]; [rewrite SK by congruence|]; reflexivity.
  - unfold del_slice. destruct (slice_bounds _ _ _). cbn [fst]. now rewrite SK by congruence.
  - unfold take, del_slice. destruct (slice_bounds _ _ _). cbn [fst snd]. now rewrite SK by congruence.
  - unfold pop, del_item. destruct (position _ _); cbn [fst]; [rewrite SK by congruence|]; reflexivity.
  - unfold remove. destruct (find_index _ _); cbn [fst]; [rewrite SK by congruence|]; reflexivity.
  - unfold clear. cbn [fst]. now rewrite SK by congruence.
  - unfold reverse. cbn [fst]. now rewrite SK by congruence.
  - unfold replace_with. cbn [par kids set_parent]. unfold upd at 1. destruct (Nat.eqb_spec self n) as [->|NE].
    + now rewrite (not_in_self h n I).
    + destruct (par h self) as [p|]; [|reflexivity]. destruct (find_index _ _); [|reflexivity]. unfold set_item. destruct (position _ _); cbn [fst]; [rewrite SK by congruence|]; reflexivity.
  - reflexivity.
Qed.
End Edits.
