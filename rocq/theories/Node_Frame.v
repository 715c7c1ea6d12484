(** Property C141: an edit of the children of a node moves whole subtrees and leaves the rest of the tree alone. *)
From Coq Require Import List ZArith Bool PeanoNat Lia.
From Verif Require Import Base Node_Model Node_Spec Node_Proofs Node_Nav Node_More Node_Edits Node_Props.
Import ListNotations.

(** ** Specification *)

(** The path [q] from [r] does not lead to a node below [p]. *)
Definition not_below {B} (h : heap B) (p r : nat) (q : list nat) : Prop := forall a b, q = a ++ b -> b <> [] -> ~ at_path h r a p.
(** A tree in which the children of the node [p] are other trees. *)
Fixpoint with_children (p : nat) (ts : list tree) (t : tree) : tree :=
  match t with T n l => T n (if Nat.eqb n p then ts else map (with_children p ts) l) end.

(** ** Proofs *)
Section Frame.
Context {B : Type}.
Variables h h' : heap B.
Variable p : nat.
Hypothesis ELSE : forall x, x <> p -> kids h' x = kids h x.

Lemma not_below_tail r i q c : nth_error (kids h r) i = Some c -> not_below h p r (i :: q) -> not_below h p c q.
Proof. intros E N a b -> NB A. apply (N (i :: a) b); [reflexivity|exact NB|]. econstructor; eauto. Qed.
Lemma not_below_neq r i q : not_below h p r (i :: q) -> r <> p.
Proof. intros N ->. apply (N [] (i :: q)); [reflexivity|discriminate|constructor]. Qed.

Lemma frame_to r q x : at_path h r q x -> not_below h p r q -> at_path h' r q x.
Proof.
  induction 1 as [n|r i c q x E A IH]; intros N; [constructor|]. econstructor; [rewrite ELSE; [exact E|now apply not_below_neq in N]|].
  apply IH. eapply not_below_tail; eassumption.
Qed.
Lemma frame_from r q x : at_path h' r q x -> not_below h p r q -> at_path h r q x.
Proof.
  induction 1 as [n|r i c q x E A IH]; intros N; [constructor|]. rewrite ELSE in E by now apply not_below_neq in N. econstructor; [exact E|].
  apply IH. eapply not_below_tail; eassumption.
Qed.
Lemma outside_not_below c q : ~ inside h c p -> not_below h p c q.
Proof. intros O a b _ _ A. apply O. now exists a. Qed.

Hypothesis I : integrity h.
Lemma path_not_below r q : at_path h r q p -> not_below h p r q.
Proof.
  intros A a b -> NB A1. apply NB. apply at_path_split in A as (y & A2 & A3). rewrite (at_path_det h r a y p A2 A1) in A3. exact (acyclic h I p b A3).
Qed.
Hypothesis I' : integrity h'.
Lemma new_child_outside c : In c (kids h' p) -> ~ inside h c p.
Proof.
  intros J (q & A). apply frame_to in A; [|now apply path_not_below]. apply In_nth_error in J as (j & J).
  assert (X : at_path h' p (j :: q) p) by (econstructor; eassumption). apply (acyclic h' I') in X. discriminate.
Qed.

Lemma rep_frame t : rep h t -> ~ inside h (tid t) p -> rep h' t.
Proof.
  induction t as [n ts IH] using tree_ind2. rewrite !rep_eq. cbn [tid]. intros [E F] O.
  assert (n <> p) by (intros ->; apply O; exists []; constructor). rewrite ELSE by assumption. split; [exact E|].
  rewrite Forall_forall in IH, F |- *. intros u U. apply IH; [exact U|now apply F|].
  intros (q & A). apply O. apply (in_map tid) in U. rewrite <- E in U. apply In_nth_error in U as (j & U). exists (j :: q). econstructor; eassumption.
Qed.
Lemma rep_with ts' t : map tid ts' = kids h' p -> Forall (rep h) ts' -> rep h t -> rep h' (with_children p ts' t).
Proof.
  intros M R. induction t as [n ts IH] using tree_ind2. rewrite rep_eq. intros [E F]. cbn [with_children]. rewrite rep_eq. destruct (Nat.eqb_spec n p) as [->|NE].
  - split; [now rewrite M|]. rewrite Forall_forall in R |- *. intros u U. apply rep_frame; [now apply R|]. apply new_child_outside. rewrite <- M. now apply in_map.
  - rewrite ELSE by assumption. split.
    + rewrite map_map, E. apply map_ext. now intros [m l].
    + rewrite Forall_forall in IH, F |- *. intros u U. apply in_map_iff in U as (v & <- & V). apply IH; [exact V|now apply F].
Qed.
End Frame.

(** ** Theorems *)

(** Nodes that are not below the edited node are at the same places before and after the edit, in every tree. *)
Theorem C141_elsewhere : forall {B} (h : heap B) e p, integrity h -> target h e = Some p ->
  forall r q x, not_below h p r q -> (at_path (perform h e) r q x <-> at_path h r q x).
Proof.
  intros B h e p I TG r q x N. assert (EL : forall x, x <> p -> kids (perform h e) x = kids h x) by (intros y NE; apply perform_elsewhere; [exact I|congruence]).
  split; intros A; [eapply frame_from|eapply frame_to]; eassumption.
Qed.
Print Assumptions C141_elsewhere.

(** What the edited node contains after the edit comes with everything that was below it, whether it was there before or is new. *)
Theorem C141_placed : forall {B} (h : heap B) e p, integrity h -> permitted h e -> target h e = Some p ->
  forall r q j c s x, at_path h r q p -> nth_error (kids (perform h e) p) j = Some c ->
  (at_path (perform h e) r (q ++ j :: s) x <-> at_path h c s x).
Proof.
  intros B h e p I PE TG r q j c s x AP J. assert (I' := perform_integrity h e I PE).
  assert (EL : forall x, x <> p -> kids (perform h e) x = kids h x) by (intros y NE; apply perform_elsewhere; [exact I|congruence]).
  assert (AP' : at_path (perform h e) r q p) by (eapply frame_to; [exact EL|exact AP|now apply path_not_below]).
  assert (O : ~ inside h c p) by (eapply new_child_outside; eauto; eapply nth_error_In; exact J).
  assert (K : at_path (perform h e) c s x <-> at_path h c s x) by (apply C141_elsewhere with (p := p); [exact I|exact TG|now apply outside_not_below]).
  rewrite <- K. split.
  - intros A. apply at_path_split in A as (y & A1 & A2). rewrite (at_path_det _ _ _ _ _ A1 AP') in A2. inversion A2 as [|? ? c' ? ? E A3]; subst. rewrite J in E. injection E as <-. exact A3.
  - intros A. eapply at_path_app; [exact AP'|]. econstructor; eassumption.
Qed.
Print Assumptions C141_placed.

(** A node that was taken out stays a whole tree. *)
Theorem C141_removed : forall {B} (h : heap B) e p, integrity h -> target h e = Some p ->
  forall c s x, In c (kids h p) -> (at_path (perform h e) c s x <-> at_path h c s x).
Proof.
  intros B h e p I TG c s x J. apply C141_elsewhere with (p := p); [exact I|exact TG|]. apply outside_not_below. intros (q & A).
  apply In_nth_error in J as (j & J). assert (X : at_path h p (j :: q) p) by (econstructor; eassumption). apply (acyclic h I) in X. discriminate.
Qed.
Print Assumptions C141_removed.

(** The class and the contents of a node never change, and no edit makes a node cease to exist. *)
Theorem C141_values : forall {B} (h : heap B) e x, x < next h ->
  cls (perform h e) x = cls h x /\ body (perform h e) x = body h x /\ x < next (perform h e).
Proof.
  intros B h e x L.
  assert (SP : forall (g : heap B) ns q, cls (set_parents g ns q) = cls g /\ body (set_parents g ns q) = body g /\ next (set_parents g ns q) = next g).
  { intros g ns q. unfold set_parents. revert g. induction ns as [|n ns IH]; intros g; cbn [fold_left]; [auto|]. destruct (IH (set_parent g n (Some q))) as (-> & -> & ->). auto. }
  destruct e as [c b l|p n|p ns|p i n|p i n|p i j ns|p i|p i j|p i j|p i|p n|p|p|s n|n]; cbn [perform].
  1: { unfold new_node. cbn [fst]. match goal with |- context [set_parents ?g ?ns ?q] => destruct (SP g ns q) as (-> & -> & ->) end. cbn [cls body next]. unfold upd. destruct (Nat.eqb_spec x (next h)); [lia|]. auto. }
  all: unfold append, extend, insert, replace_with, set_item, set_slice, take, pop, del_item, del_slice, remove, clear, reverse; cbn [snd];
    repeat match goal with |- context [match ?y with _ => _ end] => destruct y end; cbn [fst snd cls body next set_kids set_parent];
    try (match goal with |- context [set_parents ?g ?ns ?q] => destruct (SP g ns q) as (-> & -> & ->) end); cbn [cls body next set_kids]; auto.
Qed.
Print Assumptions C141_values.

(** In terms of trees: the edit changes the list of the children of one node, every child with everything below it; the rest of the tree stays.
    How the list of children changes is C36_effect. *)
Theorem C141_tree : forall {B} (h : heap B) e p, integrity h -> permitted h e -> target h e = Some p ->
  exists ts, map tid ts = kids (perform h e) p /\ Forall (rep h) ts /\
    forall t, rep h t -> rep (perform h e) (with_children p ts t).
Proof.
  intros B h e p I PE TG. assert (I' := perform_integrity h e I PE).
  assert (EL : forall x, x <> p -> kids (perform h e) x = kids h x) by (intros y NE; apply perform_elsewhere; [exact I|congruence]).
  assert (L : forall l, exists ts, map tid ts = l /\ Forall (rep h) ts).
  { induction l as [|c l (ts & E & F)]; [exists []; split; [reflexivity|constructor]|]. destruct (rep_exists h c I) as (t & E1 & R). exists (t :: ts). cbn. split; [congruence|now constructor]. }
  destruct (L (kids (perform h e) p)) as (ts & M & F). exists ts. split; [exact M|]. split; [exact F|]. intros t R. eapply rep_with; eassumption.
Qed.
Print Assumptions C141_tree.

(** 4 = (3 = (0, 1), 2): the children of 4 in the opposite order; and the child 3 taken out. *)
Example C141_witness : integrity ex /\ permitted ex (Reverse 4) /\ target ex (Reverse 4) = Some 4 /\
  at_path ex 4 [0; 1] 1 /\ at_path (perform ex (Reverse 4)) 4 [1; 1] 1 /\
  at_path (perform ex (Pop 4 0)) 3 [1] 1 /\ at_path (perform ex (Pop 4 0)) 4 [0] 2 /\
  rep ex (T 4 [T 3 [T 0 []; T 1 []]; T 2 []]) /\
  with_children 4 [T 2 []; T 3 [T 0 []; T 1 []]] (T 4 [T 3 [T 0 []; T 1 []]; T 2 []]) = T 4 [T 2 []; T 3 [T 0 []; T 1 []]].
Proof.
  split; [apply ex_integrity|]. split; [exact Logic.I|]. split; [reflexivity|].
  repeat split; repeat (econstructor; [reflexivity|]); try constructor.
Qed.
