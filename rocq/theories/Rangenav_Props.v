(** Walking through a range (property C117). *)
From Coq Require Import List ZArith Bool PeanoNat Sorting.Sorted Lia ZifyBool ZifyNat.
From Verif Require Import Base Node_Model Node_Spec Node_Nav Range_Model Range_Spec Range_Proofs Range_Machine Range_Extract Range_Member Rangenav_Model Rangenav_Spec Rangenav_Proofs Rangenav_Walk.
Import ListNotations.

(** However a range was used, it stands at one node, which is a node of the range:
    the trail leads to it and it is the current node; the index is that in its
    parent, or -1 for the ancestor of the range. *)
Theorem C117_where : forall t s e r, used t s e r ->
  exists p b m, stands r p b /\ (forall p' b', stands r p' b' -> p' = p /\ b' = b) /\ reach t p m /\ reached s e p /\ current r = Ok m /\
    (p = [] -> b = true) /\ range_index r = match p with [] => (-1)%Z | _ => Z.of_nat (List.last p 0) end.
Proof.
  intros t s e r U. destruct (used_all t s e r U) as (VS & VE & _ & p & b & C). assert (ST := cur_stands t s e p b r VS VE C). destruct (cur_node t s e p b r VS VE C) as (m & M & RE & CM). exists p, b, m.
  split; [exact ST|]. split; [intros p' b' ST'; now apply (stands_fun r)|]. split; [exact M|]. split; [exact RE|]. split; [exact CM|]. split; [intros ->; destruct b; [reflexivity|destruct ST as [_ D]; cbn in D; lia]|].
  destruct C as (q & n & s' & e' & L & below & -> & IN & G & N & P). unfold range_index. cbn [r_top r_below]. destruct b.
  - destruct P as [-> ->]. cbn [Z.eqb Pos.eqb]. inversion IN as [|q' ? ? ? ? L' i c IN' G' N' IX C W]; subst; [reflexivity|]. rewrite IX, last_last. now destruct q'.
  - destruct P as (i & -> & IX & W). rewrite IX. replace (Z.of_nat i =? -1)%Z with false by lia. rewrite last_last. now destruct q.
Qed.
Print Assumptions C117_where.

(** One step of an iteration, forward or backward, goes to the next node of
    the range at the level of the iteration, or stops if there is none. *)
Theorem C117_step : forall t s e r p b rv, used t s e r -> stands r p b ->
  (step rv r = Ok None /\ forall q j, ~ in_turn t s e rv p b q j) \/
  (exists j c r', step rv r = Ok (Some (c, r')) /\ stands r' (level_path p b ++ [j]) false /\ reach t (level_path p b ++ [j]) c /\ foremost rv (in_turn t s e rv p b (level_path p b)) j).
Proof.
  intros t s e r p b rv U ST. destruct (used_at t s e r p b U ST) as (VS & VE & C0). destruct (cur_step t s e p b r rv VS VE C0) as [H|(q & j & c & r' & X & R & C & -> & F)]; [now left|right]. exists j, c, r'.
  split; [exact X|]. split; [now apply (cur_stands t s e)|]. auto.
Qed.
Print Assumptions C117_step.

(** enter() stays at the node, but iterates over its children from then on; leave()
    goes back, and returns the depth that enter() did. *)
Theorem C117_enter : forall t s e r p b, used t s e r -> stands r p b ->
  exists r', enter r = Ok r' /\ stands r' p true /\ range_depth r' = List.length p /\
    (p <> [] -> fst (leave r') = range_depth r' /\ (b = false -> snd (leave r') = r)).
Proof.
  intros t s e r p b U ST. destruct (used_at t s e r p b U ST) as (VS & VE & C0). assert (C := C0). destruct (cur_enter t s e p b r VS VE C) as (r' & E & C'). exists r'. assert (ST' := cur_stands t s e p true r' VS VE C'). destruct (cur_leave t s e p true r' VS VE C') as [D _].
  split; [exact E|]. split; [exact ST'|]. destruct ST' as [_ D']. split; [exact D'|]. intros NP. split; [rewrite D, D'; reflexivity|]. intros ->.
  destruct C as (q & n & s' & e' & L & below & -> & _ & _ & _ & (i & _ & IX & _)). unfold enter in E. cbn [r_top] in E. rewrite IX in E. replace (Z.of_nat i =? -1)%Z with false in E by lia.
  destruct (level_child L (Z.of_nat i)) as [L2|]; [|discriminate]. cbn [bindr r_start_trail r_end_trail r_below] in E. injection E as <-. reflexivity.
Qed.
Print Assumptions C117_enter.

(** leave() goes to the node whose children are iterated over, and returns its depth;
    that is 0 if this is the ancestor of the range. *)
Theorem C117_leave : forall t s e r p b, used t s e r -> stands r p b ->
  fst (leave r) = List.length (level_path p b) /\ exists b', stands (snd (leave r)) (level_path p b) b' /\ (b' = true <-> level_path p b = []).
Proof.
  intros t s e r p b U ST. destruct (used_at t s e r p b U ST) as (VS & VE & C0). destruct (cur_leave t s e p b r VS VE C0) as [D C]. split; [exact D|]. eexists. split; [exact (cur_stands t s e _ _ _ VS VE C)|]. destruct (level_path p b); split; try reflexivity; discriminate.
Qed.
Print Assumptions C117_leave.

(** reset() and goto(). *)
Theorem C117_goto : forall t s e r p b q, used t s e r -> stands r p b ->
  stands (reset r) [] true /\ (in_view t s e q -> exists r' b', goto_trail r (Some q) = Ok r' /\ stands r' q b' /\ (b' = true <-> q = [])).
Proof.
  intros t s e r p b q U ST. destruct (used_at t s e r p b U ST) as (VS & VE & C0). assert (C := C0). split; [exact (cur_stands t s e _ _ _ VS VE (cur_reset t s e p b r C))|]. intros [EX RE].
  destruct (cur_goto t s e p b r q VS VE C EX RE) as (r' & X & C'). eexists r', _. split; [exact X|]. split; [exact (cur_stands t s e _ _ _ VS VE C')|]. destruct q; split; try reflexivity; discriminate.
Qed.
Print Assumptions C117_goto.

(** start() and end() are the bounds of the indices of the nodes of the range at the level of the
    iteration; setting the index goes to the node there, and is a ValueError
    for all other numbers. *)
Theorem C117_index : forall t s e r p b, used t s e r -> stands r p b ->
  (forall j, in_view t s e (level_path p b ++ [j]) <-> (range_start r <= Z.of_nat j <= range_end r)%Z) /\
  (forall j, in_view t s e (level_path p b ++ [j]) -> exists r', set_range_index r (Z.of_nat j) = Ok r' /\ stands r' (level_path p b ++ [j]) false) /\
  (forall i, (forall j, i = Z.of_nat j -> ~ in_view t s e (level_path p b ++ [j])) -> set_range_index r i = Err ValueError).
Proof.
  intros t s e r p b U ST. destruct (used_at t s e r p b U ST) as (VS & VE & C0). assert (C := C0). split; [|split].
  - intros j. assert (C1 := C). destruct C1 as (q & n & s' & e' & L & below & -> & IN & G & N & P). destruct (inside_facts t s e q n s' e' below VS VE IN) as (R & S1 & E1 & RE & V1 & V2 & LN & TR).
    assert (LP : level_path p b = q) by (unfold level_path; destruct b; [destruct P as [-> _]; reflexivity|destruct P as (i & -> & _); now rewrite removelast_last]).
    rewrite LP, (within_view t s e q n s' e' j R S1 E1 RE V2). unfold range_start, range_end, within. cbn [r_top]. rewrite (g_lo _ _ _ G), (g_hi _ _ _ G), N. lia.
  - intros j V. destruct (cur_index t s e p b r (Z.of_nat j) VS VE C) as [A _]. rewrite Nat2Z.id in A. destruct A as (r' & X & C'); [split; [lia|exact V]|]. exists r'. split; [exact X|]. exact (cur_stands t s e _ _ _ VS VE C').
  - intros i NI. apply (cur_index t s e p b r i VS VE C). intros [I V]. apply (NI (Z.to_nat i)); [lia|exact V].
Qed.
Print Assumptions C117_index.

(** forward() and backward() from any place: exactly the nodes of the range after (or before) the
    current node that are neither below nor above it, or also those below it if
    it was just entered; in document order (or the reverse), and without
    those below a node for which False was sent.  Then the range is as
    if it were reset. *)
Theorem C117_walk : forall t s e r p b rv prune, used t s e r -> stands r p b ->
  exists f0 ys, (forall fuel, f0 <= fuel -> walk_range fuel rv prune None r = Ok (ys, reset r)) /\
    lists t (if rv then mirror else before)
      (fun x => onward rv p b x /\ reached s e x /\ ~ skipped t (fun y => onward rv p b y /\ reached s e y) prune x) ys.
Proof.
  intros t s e r p b rv prune U ST. destruct (used_at t s e r p b U ST) as (VS & VE & C0). destruct (cur_walk t s e p b r rv prune VS VE C0) as (f0 & ys & r' & X & -> & LS). exists f0, ys. split; [exact X|exact LS].
Qed.
Print Assumptions C117_walk.

(** With an ancestor of the current node (or the node itself when it was entered):
    only those below that node.  Then the range stands at that node. *)
Theorem C117_upto : forall t s e r p b rv prune u m, all_different t -> used t s e r -> stands r p b ->
  u <> [] -> reach t u m -> above u p \/ u = p /\ b = true ->
  exists f0 ys r', (forall fuel, f0 <= fuel -> walk_range fuel rv prune (Some (tid m)) r = Ok (ys, r')) /\ used t s e r' /\ stands r' u false /\
    lists t (if rv then mirror else before)
      (fun x => (onward rv p b x /\ above u x) /\ reached s e x /\ ~ skipped t (fun y => (onward rv p b y /\ above u y) /\ reached s e y) prune x) ys.
Proof.
  intros t s e r p b rv prune u m AD U ST NU RM AB. destruct (used_at t s e r p b U ST) as (VS & VE & C).
  assert (H : exists q2, p = u ++ q2 /\ (b = true \/ q2 <> [])).
  { destruct AB as [(x & l & ->)|[<- ->]]; [exists (x :: l); split; [reflexivity|right; discriminate]|exists []; split; [now rewrite app_nil_r|now left]]. }
  destruct H as (q2 & -> & HB). destruct (cur_walk_upto t s e u m q2 b r rv prune VS VE AD NU RM C HB) as (f0 & ys & r' & X & C' & (k & EK) & LS). exists f0, ys, r'. split; [exact X|]. split; [|split; [exact (cur_stands t s e _ _ _ VS VE C')|exact LS]].
  subst r'. clear - U. induction k as [|k IH]; [exact U|]. cbn [Nat.iter nat_rect]. apply used_leave, IH.
Qed.
Print Assumptions C117_upto.

(** children(): the children of the current node that are nodes of the range, in order
    or reversed.  Then the range stands at the node, and is the same as before if
    the node was not entered. *)
Theorem C117_children : forall t s e r p b rv, used t s e r -> stands r p b ->
  exists f0 ys r' b', (forall fuel, f0 <= fuel -> range_children fuel rv r = Ok (ys, r')) /\ stands r' p b' /\ (b' = true <-> p = []) /\ (b = false -> r' = r) /\
    lists t (if rv then mirror else before) (fun x => (exists j, x = p ++ [j]) /\ reached s e x) ys.
Proof.
  intros t s e r p b rv U ST. destruct (used_at t s e r p b U ST) as (VS & VE & C0). destruct (cur_children t s e p b r rv VS VE C0) as (f0 & ys & r' & X & C & RR & LS). eexists f0, ys, r', _. split; [exact X|]. split; [exact (cur_stands t s e _ _ _ VS VE C)|].
  split; [destruct p; split; try reflexivity; discriminate|]. split; [exact RR|]. eapply lists_ext; [|destruct rv; exact LS]. intros x _. cbn beta. split; [intros (j & -> & H); eauto|intros [(j & ->) H]; eauto].
Qed.
Print Assumptions C117_children.

(** The operators / and ^: those that are of the class, and those that are not. *)
Theorem C117_operators : forall t s e r p b isa invert, used t s e r -> stands r p b ->
  exists f0 ys r', (forall fuel, f0 <= fuel -> range_children_of fuel isa invert r = Ok (ys, r')) /\
    lists t before (fun x => ((exists j, x = p ++ [j]) /\ reached s e x) /\ exists m, reach t x m /\ isa (tid m) = negb invert) ys.
Proof.
  intros t s e r p b isa invert U ST. destruct (used_at t s e r p b U ST) as (VS & VE & C0). destruct (cur_children t s e p b r false VS VE C0) as (f0 & ys & r' & X & C & RR & LS).
  exists f0, (filter (fun n => xorb invert (isa n)) ys), r'. split; [intros fuel LF; unfold range_children_of; now rewrite X|]. destruct LS as (ps & F & SO & I).
  assert (H : exists qs, Forall2 (fun p y => exists m, reach t p m /\ tid m = y) qs (filter (fun n => xorb invert (isa n)) ys) /\ (forall q, In q qs <-> In q ps /\ exists m, reach t q m /\ isa (tid m) = negb invert) /\ StronglySorted before qs).
  { clear I X. cbn [ordr] in SO. revert SO. induction F as [|p0 y ps ys (m & M & T) F IH]; intros SO.
    - exists []. split; [constructor|]. split; [|constructor]. intros q. split; [intros []|intros [[] _]].
    - apply StronglySorted_inv in SO as [SO FO]. destruct (IH SO) as (qs & F' & I' & S'). cbn [filter]. destruct (xorb invert (isa y)) eqn:Q.
      + exists (p0 :: qs). split; [constructor; eauto|]. split.
        * intros q. cbn [In]. rewrite I'. split; [intros [<-|[A B]]; [split; [now left|]; exists m; split; [exact M|]; subst y; destruct invert, (isa (tid m)); auto; discriminate|auto]|]. intros [[A|A] B]; auto.
        * constructor; [exact S'|]. rewrite Forall_forall in *. intros q Q'. apply I' in Q' as [Q' _]. auto.
      + exists qs. split; [exact F'|]. split; [|exact S']. intros q. rewrite I'. cbn [In]. split; [tauto|]. intros [[<-|A] (m' & M' & B)]; [|eauto]. exfalso. assert (m' = m) by (eapply reach_fun; eauto). subst m' y. destruct invert, (isa (tid m)); discriminate. }
  destruct H as (qs & F' & I' & S'). exists qs. split; [exact F'|]. split; [exact S'|]. intros q. rewrite I', I. split; [intros [[(j & -> & B) E] M]; split; [split; [eauto|exact M]|exact E]|intros [[[(j & ->) B] M] E]; eauto 8].
Qed.
Print Assumptions C117_operators.

(** ancestors(): the ancestors of the current node up to and including the ancestor
    of the range, the nearest first; but first the node itself if it was
    entered.  Then the range is as if it were reset. *)
Theorem C117_ancestors : forall t s e r p b, used t s e r -> stands r p b ->
  exists f0 ys, (forall fuel, f0 <= fuel -> range_ancestors fuel r = Ok (ys, reset r)) /\
    lists t (fun x y => above y x) (fun x => above x p \/ b = true /\ p <> [] /\ x = p) ys.
Proof.
  intros t s e r p b U ST. destruct (used_at t s e r p b U ST) as (VS & VE & C0). destruct (cur_ancestors t s e p b r VS VE C0) as (f0 & ys & r' & X & _ & LS). exists f0, ys. split; [|exact LS]. intros fuel LF. specialize (X fuel LF). rewrite X. f_equal. f_equal. exact (ancestors_reset _ _ _ _ X).
Qed.
Print Assumptions C117_ancestors.

(** ** A document with a range from the node 3 to the node 8 *)

Definition walked : tree := T 0 [T 1 [T 2 []; T 3 []; T 4 []]; T 5 [T 6 [T 7 []]; T 8 []; T 9 []]; T 10 []].

Ltac existing := eexists; repeat (first [apply reach_here | eapply reach_down; [reflexivity|]]).

Definition gotten (x : res range) : range := match x with Ok r => r | Err _ => Range None None (Level walked 0 None None 0 0 0) [] end.
Definition r0 := gotten (new_range walked (Some [0; 1]) (Some [1; 1])).
Definition r1 := gotten (goto_trail r0 (Some [1; 0])).
Definition r2 := gotten (enter r1).

Lemma r1_used : used walked (Some [0; 1]) (Some [1; 1]) r1.
Proof.
  apply used_goto with (r := r0) (p := [1; 0]); [apply used_new; [existing|existing|vm_compute; reflexivity]|existing| |vm_compute; reflexivity].
  split; [left; right; right; exists [], 0, 1, [1], [0]; repeat split; lia|right; right; exists [1], 0, 1, [], []; repeat split; lia].
Qed.
Lemma r2_used : used walked (Some [0; 1]) (Some [1; 1]) r2.
Proof. apply used_enter with (r := r1); [exact r1_used|vm_compute; reflexivity]. Qed.

Definition yielded (x : res (list nat * range)) : list nat := match x with Ok (ys, _) => ys | Err _ => [99] end.

Example C117_witness : used walked (Some [0; 1]) (Some [1; 1]) r1 /\ stands r1 [1; 0] false /\ used walked (Some [0; 1]) (Some [1; 1]) r2 /\ stands r2 [1; 0] true /\
  yielded (walk_range 20 false (fun _ => false) None r1) = [8] /\ yielded (walk_range 20 true (fun _ => false) None r1) = [1; 4; 3] /\ yielded (walk_range 20 true (fun _ => false) (Some 5) r1) = [] /\
  yielded (range_children 20 false r1) = [7] /\ yielded (range_ancestors 20 r1) = [5; 0] /\ set_range_index r1 2 = Err ValueError /\
  yielded (walk_range 20 false (fun _ => false) None r2) = [7; 8] /\ yielded (range_ancestors 20 r2) = [6; 5; 0].
Proof.
  split; [exact r1_used|]. split; [split; vm_compute; reflexivity|]. split; [exact r2_used|]. split; [split; vm_compute; reflexivity|]. repeat (split; [vm_compute; reflexivity|]). vm_compute. reflexivity.
Qed.

Example C117_upto_witness : all_different (T 0 [T 1 [T 2 []; T 3 []]; T 4 []]) /\ above [0] [0; 0].
Proof.
  split; [|now exists 0, []]. intros p q m n P Q E.
  assert (H : forall p m, reach (T 0 [T 1 [T 2 []; T 3 []]; T 4 []]) p m -> In (p, tid m) [([], 0); ([0], 1); ([0; 0], 2); ([0; 1], 3); ([1], 4)]).
  { clear. intros p m R. repeat match goal with
      | H : reach (T _ _) _ _ |- _ => inversion H; clear H; subst
      | H : nth_error _ ?i = Some _ |- _ => destruct i; cbn in H; try discriminate; try (injection H as <-)
      end; cbn; auto 10; match goal with H : nth_error [] ?i = Some _ |- _ => destruct i; discriminate | _ => idtac end; try (match goal with H : nth_error _ ?i = Some _ |- _ => destruct i; cbn in H; discriminate end). }
  apply H in P, Q. rewrite E in P. clear E H. cbn in P, Q. intuition congruence.
Qed.

(** Finding: after enter(), ancestors() yields the current node itself, although it
    is documented to yield the ancestors of the current node. *)
Theorem C117_ancestors_finding : exists t s e r p r' ys m, used t s e r /\ stands r p true /\ p <> [] /\ current r = Ok m /\ range_ancestors 20 r = Ok (tid m :: ys, r').
Proof.
  destruct C117_witness as (_ & _ & U & ST & _). exists walked, (Some [0; 1]), (Some [1; 1]), r2, [1; 0]. eexists. eexists. eexists. split; [exact U|]. split; [exact ST|].
  split; [discriminate|]. split; [vm_compute; reflexivity|]. vm_compute. reflexivity.
Qed.
Print Assumptions C117_ancestors_finding.
