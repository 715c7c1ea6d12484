(** Property C141, continued: what a range does to its tree is what the nodes do. *)
From Coq Require Import List ZArith Bool PeanoNat Lia.
From Verif Require Import Base Node_Model Node_Spec Node_Proofs Node_Nav Node_More Node_Edits Node_Props Node_Frame Range_Model.
Import ListNotations.

Lemma splice_map {A C} (f : A -> C) l a b v : map f (splice l a b v) = splice (map f l) a b (map f v).
Proof. unfold splice. now rewrite !map_app, firstn_map, skipn_map. Qed.
Lemma bounds_map {A C} (f : A -> C) l i j : slice_bounds (map f l) i j = slice_bounds l i j.
Proof. unfold slice_bounds. now rewrite map_length. Qed.
Lemma position_map {A C} (f : A -> C) l i : position (map f l) i = position l i.
Proof. unfold position. now rewrite map_length. Qed.
Lemma splice_Forall {A} (P : A -> Prop) l a b v : Forall P l -> Forall P v -> Forall P (splice l a b v).
Proof.
  intros L V. unfold splice. rewrite !Forall_app. split; [|split; [exact V|]].
  - rewrite <- (firstn_skipn a l) in L. now apply Forall_app in L as [L1 _].
  - rewrite <- (firstn_skipn b l) in L. now apply Forall_app in L as [_ L2].
Qed.

Lemma level_slice_node l i j value : l_node (set_level_slice l i j value) =
  let (a, b) := slice_bounds (children (l_node l)) i j in set_children (l_node l) (splice (children (l_node l)) a b value).
Proof.
  unfold set_level_slice. destruct (slice_bounds (children (l_node l)) i j) as [a b].
  match goal with |- context [if ?c then _ else _] => destruct c end; [reflexivity|].
  match goal with |- l_node (let (_, _) := ?x in _) = _ => destruct x end.
  match goal with |- l_node (let (_, _) := ?x in _) = _ => destruct x end. reflexivity.
Qed.

(** Assigning to a slice of the children through a range: when the tree of the range is that of the nodes, it is so afterwards, for
    the node on the current level and for every tree around it. *)
Theorem C141_range_slice : forall {B} (h : heap B) l i j value,
  let p := tid (l_node l) in let e := SetSlice p i j (map tid value) in let l' := set_level_slice l i j value in
  integrity h -> permitted h e -> rep h (l_node l) -> Forall (rep h) value ->
  rep (perform h e) (l_node l') /\ forall t, rep h t -> rep (perform h e) (with_children p (children (l_node l')) t).
Proof.
  intros B h l i j value p e l' I PE R RV. assert (I' := perform_integrity h e I PE).
  assert (EL : forall x, x <> p -> kids (perform h e) x = kids h x) by (intros y NE; apply perform_elsewhere; [exact I|cbn; congruence]).
  unfold l'. rewrite level_slice_node. destruct (l_node l) as [n ts]. cbn [tid] in p. cbn [children] in *. apply rep_eq in R as [K F].
  destruct (slice_bounds ts i j) as [a b] eqn:SB. cbn [set_children children].
  assert (M : map tid (splice ts a b value) = kids (perform h e) n).
  { subst e p. cbn [perform]. unfold set_slice. rewrite (proj1 (set_parents_kids h (map tid value) n)). rewrite K, bounds_map, SB. cbn [fst kids set_kids]. rewrite upd_same. apply splice_map. }
  assert (X : forall t, rep h t -> rep (perform h e) (with_children n (splice ts a b value) t)).
  { intros t RT. eapply rep_with; [exact EL|exact I|exact I'|exact M|now apply splice_Forall|exact RT]. }
  split; [|exact X]. assert (Y := X (T n ts)). cbn [with_children] in Y. rewrite Nat.eqb_refl in Y. apply Y. apply rep_eq. auto.
Qed.
Print Assumptions C141_range_slice.

(** The same for one item; where there is none, both raise an IndexError. *)
Theorem C141_range_item : forall {B} (h : heap B) l i value,
  let p := tid (l_node l) in let e := SetItem p i (tid value) in
  integrity h -> permitted h e -> rep h (l_node l) -> rep h value ->
  match set_level_item l i value with
  | Ok l' => snd (set_item h p i (tid value)) = None /\ rep (perform h e) (l_node l') /\
      forall t, rep h t -> rep (perform h e) (with_children p (children (l_node l')) t)
  | Err x => snd (set_item h p i (tid value)) = Some x
  end.
Proof.
  intros B h l i value p e I PE R RV. assert (I' := perform_integrity h e I PE).
  assert (EL : forall x, x <> p -> kids (perform h e) x = kids h x) by (intros y NE; apply perform_elsewhere; [exact I|cbn; congruence]).
  unfold set_level_item. destruct (l_node l) as [n ts]. cbn [tid] in p. cbn [children] in *. apply rep_eq in R as [K F].
  assert (SI : snd (set_item h p i (tid value)) = match position ts i with Some _ => None | None => Some IndexError end).
  { unfold set_item. cbn [kids set_parent]. subst p. rewrite K, position_map. now destruct (position ts i). }
  rewrite SI. destruct (position ts i) as [k|] eqn:PO; [|reflexivity]. cbn [l_node set_children children]. split; [reflexivity|].
  assert (M : map tid (splice ts k (S k) [value]) = kids (perform h e) n).
  { subst e p. cbn [perform]. unfold set_item. cbn [kids set_parent]. rewrite K, position_map, PO. cbn [fst kids set_kids]. rewrite upd_same. exact (splice_map tid ts k (S k) [value]). }
  assert (X : forall t, rep h t -> rep (perform h e) (with_children n (splice ts k (S k) [value]) t)).
  { intros t RT. eapply rep_with; [exact EL|exact I|exact I'|exact M|apply splice_Forall; auto|exact RT]. }
  split; [|exact X]. assert (Y := X (T n ts)). cbn [with_children] in Y. rewrite Nat.eqb_refl in Y. apply Y. apply rep_eq. auto.
Qed.
Print Assumptions C141_range_item.

(** The range is on 4 = (3 = (0, 1), 2), and the children of 4 become 2 and 3; then 3 is replaced by a new node 5. *)
Definition ex_tree : tree := T 4 [T 3 [T 0 []; T 1 []]; T 2 []].
Definition ex_level : level := Level ex_tree 0 None None 0 (-1) (-1).
Example C141_range_witness : integrity ex /\ permitted ex (SetSlice 4 None None [2; 3]) /\ rep ex ex_tree /\ Forall (rep ex) [T 2 []; T 3 [T 0 []; T 1 []]] /\
  l_node (set_level_slice ex_level None None [T 2 []; T 3 [T 0 []; T 1 []]]) = T 4 [T 2 []; T 3 [T 0 []; T 1 []]] /\
  let h := perform ex (New 1 20 []) in
  integrity h /\ permitted h (SetItem 4 (-2) 5) /\ rep h ex_tree /\
  exists l, set_level_item ex_level (-2) (T 5 []) = Ok l /\ l_node l = T 4 [T 5 []; T 2 []].
Proof.
  split; [apply ex_integrity|]. split; [|split; [|split; [|split; [reflexivity|]]]].
  - split; [vm_compute; lia|]. split; [constructor; [intros [X|[]]; discriminate|constructor; [intros []|constructor]]|].
    change (slice_bounds (kids ex 4) None None) with (0, 2). intros n J. right. change (slice (kids ex 4) 0 2) with [3; 2]. destruct J as [<-|[<-|[]]]; cbn; auto.
  - repeat split.
  - repeat constructor.
  - cbv zeta. assert (I : integrity (perform ex (New 1 20 []))) by (apply perform_integrity; [apply ex_integrity|split; [constructor|intros n []]]).
    split; [exact I|]. split; [|split; [repeat split|eexists; split; reflexivity]].
    split; [cbn; lia|]. split; [apply detached_dec; [exact I|reflexivity]|]. apply leaf_outside; [reflexivity|lia].
Qed.
