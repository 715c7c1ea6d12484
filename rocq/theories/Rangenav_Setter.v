(** Replacing the current node of a range (property C118). *)
From Coq Require Import List ZArith Bool PeanoNat Lia ZifyBool ZifyNat.
From Verif Require Import Base Node_Model Node_Spec Node_Nav Range_Model Range_Spec Range_Proofs Range_Machine Range_Extract Range_Member Rangenav_Model Rangenav_Spec Rangenav_Proofs Rangenav_Walk Rangenav_Props.
Import ListNotations.

Lemma start_elsewhere : forall p x z, ~ above p x -> (upto (p ++ z) x \/ above x (p ++ z) <-> upto p x \/ above x p).
Proof.
  induction p as [|i p IH]; intros x z NA.
  - cbn [app]. destruct x as [|j x]; [|elim NA; apply above_nil]. split; intros _; [left; apply upto_nil|]. destruct z; [left; apply upto_nil|right; apply above_nil].
  - cbn [app]. destruct x as [|j x]; [split; intros _; right; apply above_nil|]. rewrite !upto_cons, !above_cons2. destruct (Nat.eq_dec i j) as [->|N]; [|lia].
    specialize (IH x z). assert (NA' : ~ above p x) by (intros A; apply NA; now apply above_cons2). specialize (IH NA'). split; (intros [[A|[_ A]]|[_ A]]; [lia|apply or_introl with (B := above x (p ++ z)) in A || idtac; tauto|tauto]).
Qed.
Lemma end_elsewhere : forall p x z, ~ above p x -> (upto x (p ++ z) <-> upto x p).
Proof.
  induction p as [|i p IH]; intros x z NA.
  - cbn [app]. destruct x as [|j x]; [|elim NA; apply above_nil]. split; intros _; apply upto_nil.
  - cbn [app]. destruct x as [|j x]; [split; intros _; apply upto_nil|]. rewrite !upto_cons. destruct (Nat.eq_dec i j) as [->|N]; [|lia].
    assert (NA' : ~ above p x) by (intros A; apply NA; now apply above_cons2). specialize (IH x z NA'). tauto.
Qed.
Lemma inside_dec (p : list nat) (s : option (list nat)) : (exists z, s = Some (p ++ z)) \/ forall z, s <> Some (p ++ z).
Proof. destruct s as [s|]; [|right; discriminate]. destruct (prefix_dec p s) as [[y ->]|N]; [left; eauto|right; intros z [= E]; now apply (N z)]. Qed.

Lemma reached_elsewhere p s e s' e' x : retracted p s s' -> retracted p e e' -> ~ above p x -> (reached s' e' x <-> reached s e x).
Proof.
  intros [S1 S2] [E1 E2] NA. unfold reached.
  assert (HS : match s' with Some s => upto s x \/ above x s | None => True end <-> match s with Some s => upto s x \/ above x s | None => True end).
  { destruct (inside_dec p s) as [[z ->]|N]; [rewrite (S1 z eq_refl); symmetry; now apply start_elsewhere|now rewrite (S2 N)]. }
  assert (HE : match e' with Some e => upto x e | None => True end <-> match e with Some e => upto x e | None => True end).
  { destruct (inside_dec p e) as [[z ->]|N]; [rewrite (E1 z eq_refl); symmetry; now apply end_elsewhere|now rewrite (E2 N)]. }
  now rewrite HS, HE.
Qed.
Lemma upto_app (p y : list nat) : upto p (p ++ y).
Proof. destruct y as [|i y]; [left; now rewrite app_nil_r|right; left; now exists i, y]. Qed.
Lemma reached_inside p s e s' e' y : retracted p s s' -> retracted p e e' -> reached s e p -> y <> [] -> (reached s' e' (p ++ y) <-> forall z, e <> Some (p ++ z)).
Proof.
  intros [S1 S2] [E1 E2] [RS RE] NY. destruct y as [|i y]; [congruence|].
  assert (HS : match s' with Some s => upto s (p ++ i :: y) \/ above (p ++ i :: y) s | None => True end).
  { destruct (inside_dec p s) as [[z ->]|N]; [rewrite (S1 z eq_refl); left; apply upto_app|]. rewrite (S2 N). destruct s as [s|]; [|exact Logic.I]. left. destruct RS as [RS|(j & r & ->)]; [|now elim (N (j :: r))]. eapply upto_trans; [exact RS|apply upto_app]. }
  unfold reached. destruct (inside_dec p e) as [[z ->]|N].
  - rewrite (E1 z eq_refl). split; [|intros H; now elim (H z)]. intros [_ U]. exfalso. assert (X := upto_antisym _ _ U (upto_app p (i :: y))). apply (f_equal (@List.length nat)) in X. rewrite app_length in X. cbn in X. lia.
  - rewrite (E2 N). split; [intros _; exact N|]. intros _. split; [exact HS|]. destruct e as [e|]; [|exact Logic.I]. right. right. destruct RE as [->|[(j & r & ->)|L]]; [elim (N []); now rewrite app_nil_r|now elim (N (j :: r))|]. now apply Node_Nav.left_of_app_l.
Qed.

Lemma replaced_exists v t p t' : replaced v t p t' -> (forall y, exists_at t' (p ++ y) <-> exists_at v y) /\ (forall x, ~ above p x -> (exists_at t' x <-> exists_at t x)).
Proof.
  intros H. induction H as [t|n l c r p c' H [IH1 IH2]].
  - split; [reflexivity|]. intros [|j x] NA; [|elim NA; apply above_nil]. split; intros _; eexists; constructor.
  - assert (E : forall d : tree, nth_error (l ++ d :: r) (List.length l) = Some d) by (intros d; now rewrite nth_error_app2, Nat.sub_diag). split.
    + intros y. cbn [app]. rewrite exists_cons. rewrite <- IH1. split; [intros (d & X & D); rewrite E in X; injection X as ->; exact D|eauto].
    + intros [|j x] NA; [split; intros _; eexists; constructor|]. rewrite !exists_cons. destruct (Nat.eq_dec j (List.length l)) as [->|N].
      * assert (NA' : ~ above p x) by (intros A; apply NA; now apply above_cons2). specialize (IH2 x NA'). split; intros (d & X & D); rewrite E in X; injection X as <-; eexists; (split; [apply E|now apply IH2]).
      * assert (EQ : forall d d' : tree, nth_error (l ++ d :: r) j = nth_error (l ++ d' :: r) j).
        { intros d d'. destruct (Nat.lt_ge_cases j (List.length l)); [rewrite !nth_error_app1 by lia; reflexivity|]. rewrite !nth_error_app2 by lia. destruct (j - List.length l) as [|m] eqn:Q; [lia|reflexivity]. }
        now rewrite (EQ c' c).
Qed.

(** Setting the current node of a range puts the new node in the tree at that place, and nothing
    else; a boundary that was in the old node is the new one then.  The range
    stands at it, on the level of its siblings, and can be used as before:
    whatever holds of a used range (property C117) holds after it. *)
Theorem C118_node : forall t s e r p b v, used t s e r -> stands r p b -> p <> [] ->
  exists r' t' s' e', set_range_node r v = Ok r' /\ replaced v t p t' /\ retracted p s s' /\ retracted p e e' /\
    used t' s' e' r' /\ stands r' p false /\ current r' = Ok v /\ ancestor r' = t' /\ r_start_trail r' = s' /\ r_end_trail r' = e'.
Proof.
  intros t s e r p b v U ST NP. destruct (used_all t s e r U) as (VS & VE & W & _). destruct (used_at t s e r p b U ST) as (_ & _ & C). destruct (cur_set_node t s e p b r v VS VE C W) as [_ H].
  destruct (H NP) as (r' & t2 & s2 & e2 & X & RP & RS & RE & V1 & V2 & C' & W'). exists r', t2, s2, e2. split; [exact X|]. split; [exact RP|]. split; [exact RS|]. split; [exact RE|].
  split; [eapply used_node; eauto|]. split; [exact (cur_stands t2 s2 e2 p false r' V1 V2 C')|]. destruct (cur_node t2 s2 e2 p false r' V1 V2 C') as (m & M & _ & CM). split.
  - rewrite CM. f_equal. clear - RP M. revert m M. induction RP as [t|n l c r p c' RP IH]; intros m M; [now inversion M|]. apply IH. apply reach_cons in M as (d & D & M). rewrite nth_error_app2, Nat.sub_diag in D by lia. cbn in D. injection D as ->. exact M.
  - destruct W' as (A & B & _). split; [|auto]. unfold ancestor. destruct C' as (q & n & s' & e' & L & below & -> & IN & G & N & _). unfold base_level. cbn [r_top r_below]. clear - IN N G. revert L N G.
    induction IN as [|q n s' e' below L' i c IN IH G' N' IX C W]; intros L N G; [exact N|]. specialize (IH L' N' G'). cbn [List.last]. destruct below as [|b below]; [exact IH|]. 
    assert (Y : forall (l : list level) x d d', List.last (x :: l) d = List.last (x :: l) d') by (induction l as [|y l IHl]; intros x d d'; [reflexivity|]; exact (IHl y d d')). now rewrite (Y below b L L').
Qed.
Print Assumptions C118_node.

(** The ancestor of the range can not be replaced. *)
Theorem C118_ancestor : forall t s e r b v, used t s e r -> stands r [] b -> set_range_node r v = Err ValueError.
Proof.
  intros t s e r b v U ST. destruct (used_all t s e r U) as (VS & VE & W & _). destruct (used_at t s e r [] b U ST) as (_ & _ & C). now apply (cur_set_node t s e [] b r v VS VE C W).
Qed.
Print Assumptions C118_ancestor.

(** What the range comprises then: elsewhere the same nodes, the new node, and all that
    is below the new node, unless the range ended at the old node or inside it. *)
Theorem C118_view : forall t s e r p b v r' t' s' e', used t s e r -> stands r p b -> set_range_node r v = Ok r' -> replaced v t p t' -> retracted p s s' -> retracted p e e' ->
  in_view t' s' e' p /\
  (forall x, ~ above p x -> (in_view t' s' e' x <-> in_view t s e x)) /\
  (forall y, y <> [] -> (in_view t' s' e' (p ++ y) <-> exists_at v y /\ forall z, e <> Some (p ++ z))).
Proof.
  intros t s e r p b v r' t' s' e' U ST H RP RS RE. destruct (used_at t s e r p b U ST) as (VS & VE & C). destruct (cur_node t s e p b r VS VE C) as (m & M & RR & _). destruct (replaced_exists v t p t' RP) as [X1 X2].
  assert (NA : ~ above p p) by (intros A; exact (above_neq _ _ A eq_refl)).
  assert (B : forall x, ~ above p x -> (in_view t' s' e' x <-> in_view t s e x)) by (intros x NX; unfold in_view; now rewrite (X2 x NX), (reached_elsewhere p s e s' e' x RS RE NX)).
  split; [apply B; [exact NA|split; [now exists m|exact RR]]|]. split; [exact B|]. intros y NY. unfold in_view. now rewrite X1, (reached_inside p s e s' e' y RS RE RR NY).
Qed.
Print Assumptions C118_view.

(** ** In the document above: the end node's parent, 5, is replaced from inside *)

Definition r3 := gotten (goto_trail r0 (Some [1])).
Definition fresh : tree := T 20 [T 21 []].
Definition r4 := gotten (set_range_node r2 fresh).
Definition r5 := gotten (set_range_node r3 fresh).

Definition identity (x : res tree) : nat := match x with Ok t => tid t | Err _ => 99 end.
Example C118_witness : used walked (Some [0; 1]) (Some [1; 1]) r2 /\ stands r2 [1; 0] true /\
  set_range_node r2 fresh = Ok r4 /\ ancestor r4 = T 0 [T 1 [T 2 []; T 3 []; T 4 []]; T 5 [fresh; T 8 []; T 9 []]; T 10 []] /\ r_end_trail r4 = Some [1; 1] /\
  stands r3 [1] false /\ set_range_node r3 fresh = Ok r5 /\ ancestor r5 = T 0 [T 1 [T 2 []; T 3 []; T 4 []]; fresh; T 10 []] /\ r_end_trail r5 = Some [1] /\
  yielded (walk_range 20 false (fun _ => false) None (reset r4)) = [1; 3; 4; 5; 20; 21; 8] /\ yielded (walk_range 20 false (fun _ => false) None (reset r5)) = [1; 3; 4; 20] /\
  identity (current r5) = 20 /\ set_range_node r0 fresh = Err ValueError.
Proof.
  split; [exact r2_used|]. split; [split; vm_compute; reflexivity|]. split; [vm_compute; reflexivity|]. split; [vm_compute; reflexivity|]. split; [vm_compute; reflexivity|]. split; [split; vm_compute; reflexivity|]. repeat (split; [vm_compute; reflexivity|]). vm_compute. reflexivity.
Qed.
