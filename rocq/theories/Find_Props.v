(** Property C56: finding nodes by their position in the text. *)
From Coq Require Import List Arith Bool Lia ZifyBool.
From Verif Require Import Base Find_Model Find_Spec Find_Proofs.
Import ListNotations.

Lemma laid_ok : forall t, laid_out t -> tree_ok t.
Proof. intros t [A B]. split; eauto. Qed.

(** The pos and end attributes are where the text of the node begins and ends; both are None if it has no text. *)
Theorem C56_positions : forall t, laid_out t ->
  (forall i, pos t = Some i <-> begins t i) /\ (forall j, pend t = Some j <-> ends t j) /\
  (pos t = None <-> spans t = []) /\ (pend t = None <-> spans t = []).
Proof.
  intros t [A B]. split; [intros; apply pos_begins; exact A|]. split; [intros; apply pend_ends|].
  split; [apply pos_none; exact A|apply pend_none].
Qed.
Print Assumptions C56_positions.

(** find_child: the last child touching the position; None only if there is none. *)
Theorem C56_find_child : forall p t, laid_out t ->
  exists r, find_child p t = Ok r /\ forall n, r = Some n <-> the_child p (pkids t) n.
Proof.
  intros p t L. destruct (find_child_any p t (laid_ok _ L)) as (r & E & [(n & -> & C)|[-> N]]); eexists; (split; [exact E|]); intros m; split.
  - intros X. injection X as <-. exact C.
  - intros C'. f_equal. eapply child_fun; eauto.
  - discriminate.
  - intros (l1 & l2 & X & T & _). exfalso. rewrite X in N. apply Forall_app in N. destruct N as [_ N]. inversion N; contradiction.
Qed.
Print Assumptions C56_find_child.

Theorem C56_no_child : forall p t, laid_out t ->
  (find_child p t = Ok None <-> forall n, In n (pkids t) -> ~ touches n p).
Proof.
  intros p t L. destruct (find_child_any p t (laid_ok _ L)) as (r & E & [(n & -> & C)|[-> N]]); rewrite E; split; try discriminate.
  - intros H. exfalso. apply (H n); [eapply child_in; eauto|]. destruct C as (l1 & l2 & _ & T & _). exact T.
  - intros _. apply Forall_forall. exact N.
  - reflexivity.
Qed.
Print Assumptions C56_no_child.

Theorem C56_find_descendants : forall p t e, laid_out t ->
  exists l, find_descendants p t e = Ok l /\
    chain p (match e with None => p | Some e => Nat.max e p end) (pkids t) l /\
    find_descendant p t e = Ok (last (map Some l) None).
Proof.
  intros p t e L. unfold find_descendant, find_descendants. destruct (find_child_any p t (laid_ok _ L)) as (r & E & _). rewrite E. cbn [bindr].
  set (e' := match e with None => p | Some e0 => if e0 <? p then p else e0 end).
  assert (X : e' = match e with None => p | Some e => Nat.max e p end).
  { unfold e'. destruct e as [e|]; [|reflexivity]. destruct (e <? p) eqn:C; lia. }
  destruct (descendants_loop_ok p e' (height t) t r (laid_ok _ L)) as (l & A & B); [reflexivity|exact E|].
  rewrite A. cbn [bindr]. exists l. rewrite <- X. auto.
Qed.
Print Assumptions C56_find_descendants.

(** find_descendant_right: in document order, no node before the found one begins at or after the position. *)
Theorem C56_right : forall p t, laid_out t ->
  exists r, find_descendant_right p t = Ok r /\
    match r with
    | None => forall d i, In d (flat_map pre (pkids t)) -> begins d i -> i < p
    | Some d => exists l1 l2 i, flat_map pre (pkids t) = l1 ++ d :: l2 /\ begins d i /\ p <= i /\
                  forall d' i', In d' l1 -> begins d' i' -> i' < p
    end.
Proof.
  intros p t L. unfold find_descendant_right. pose proof (laid_ok _ L) as K.
  rewrite right_ok; [|constructor; [apply tree_ok_kids; exact K|constructor]|cbn [measure]; rewrite steps_eq; lia].
  cbn [concat]. rewrite app_nil_r. eexists. split; [reflexivity|].
  assert (HD : forall d, In d (flat_map pre (pkids t)) -> headed d).
  { intros d D. apply (pre_headed t); [apply L|]. rewrite pre_eq. right. exact D. }
  assert (ST : forall d i, In d (flat_map pre (pkids t)) -> starts_at p d = false -> begins d i -> i < p).
  { intros d i D S B. unfold starts_at in S. apply (pos_begins d i (HD d D)) in B. rewrite B in S. lia. }
  destruct (find (starts_at p) (flat_map pre (pkids t))) as [d|] eqn:F.
  - destruct (find_first _ _ _ _ F) as (l1 & l2 & E & S & N). exists l1, l2. unfold starts_at in S. destruct (pos d) as [i|] eqn:Pd; [|discriminate].
    exists i. rewrite Forall_forall in N. split; [exact E|]. split; [apply pos_begins; [apply HD; rewrite E; apply in_or_app; right; left; reflexivity|exact Pd]|].
    split; [lia|]. intros d' i' D B. apply (ST d'); auto. rewrite E. apply in_or_app. left. exact D.
  - intros d i D B. apply (ST d i D); [|exact B]. exact (find_none _ _ F d D).
Qed.
Print Assumptions C56_right.

(** find_descendant_left: the last node, parents counted after their children, that ends at or before the position. *)
Theorem C56_left : forall p t, laid_out t ->
  exists r, find_descendant_left p t = Ok r /\
    match r with
    | None => forall d j, In d (flat_map post (pkids t)) -> ends d j -> p < j
    | Some d => exists l1 l2 j, flat_map post (pkids t) = l1 ++ d :: l2 /\ ends d j /\ j <= p /\
                  forall d' j', In d' l2 -> ends d' j' -> p < j'
    end.
Proof.
  intros p t L. unfold find_descendant_left. pose proof (laid_ok _ L) as K.
  rewrite left_ok.
  2:{ constructor; [|constructor]. pose proof (tree_ok_kids _ K) as T. rewrite Forall_forall in *. intros x X. apply T. apply in_rev. exact X. }
  2:{ cbn [measure]. rewrite steps_eq, steps_list_rev. lia. }
  cbn [concat]. rewrite app_nil_r. eexists. split; [reflexivity|].
  assert (R : flat_map rpost (rev (pkids t)) = rev (flat_map post (pkids t))) by (rewrite rev_flat_map; reflexivity).
  rewrite R.
  assert (ST : forall d j, stops_at p d = false -> ends d j -> p < j).
  { intros d j S B. unfold stops_at in S. apply pend_ends in B. rewrite B in S. lia. }
  destruct (find (stops_at p) (rev (flat_map post (pkids t)))) as [d|] eqn:F.
  - destruct (find_first _ _ _ _ F) as (l1 & l2 & E & S & N). exists (rev l2), (rev l1). unfold stops_at in S. destruct (pend d) as [j|] eqn:Pd; [|discriminate].
    exists j. rewrite Forall_forall in N. split.
    { rewrite <- (rev_involutive (flat_map post (pkids t))), E, rev_app_distr. cbn. rewrite <- app_assoc. reflexivity. }
    split; [apply pend_ends; exact Pd|]. split; [lia|]. intros d' j' D B. apply (ST d'); auto. apply N. apply in_rev. exact D.
  - intros d j D B. apply (ST d j); [|exact B]. apply (find_none _ _ F d). apply in_rev. rewrite rev_involutive. exact D.
Qed.
Print Assumptions C56_left.

(** A document with a block from 0 to 9 that holds two notes, a node without origin and a note with an articulation. *)
Definition ex_doc : pn :=
  P 0 None None [P 1 (Some (0, 1)) (Some (8, 9)) [P 2 (Some (2, 3)) None []; P 3 None None []; P 4 (Some (3, 4)) None [P 5 (Some (4, 6)) None []]];
                 P 6 (Some (10, 12)) None []].
Example C56_witness : laid_out ex_doc /\
  find_child 9 ex_doc = Ok (Some (P 1 (Some (0, 1)) (Some (8, 9)) [P 2 (Some (2, 3)) None []; P 3 None None []; P 4 (Some (3, 4)) None [P 5 (Some (4, 6)) None []]])) /\
  (let! l := find_descendants 3 ex_doc None in Ok (map pid l)) = Ok [1; 4] /\
  (let! l := find_descendants 5 ex_doc None in Ok (map pid l)) = Ok [1; 4; 5] /\
  (let! l := find_descendants 5 ex_doc (Some 7) in Ok (map pid l)) = Ok [1] /\
  (let! n := find_descendant_right 4 ex_doc in Ok (option_map pid n)) = Ok (Some 5) /\
  (let! n := find_descendant_left 6 ex_doc in Ok (option_map pid n)) = Ok (Some 4) /\
  find_child 13 ex_doc = Ok None.
Proof. repeat split; cbn; try lia; try discriminate. Qed.

(** If a node has its tail in the text but not its head (its head_origin was deleted),
    find_descendant_right compares None with the position. *)
Theorem C56_headless_finding :
  find_descendant_right 0 (P 0 None None [P 1 None (Some (2, 3)) []]) = Err TypeError.
Proof. reflexivity. Qed.
