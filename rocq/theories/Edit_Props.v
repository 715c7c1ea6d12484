(** The document and the changes of an Edit object: the property C106. *)
From Coq Require Import List Bool PeanoNat Lia.
From Verif Require Import Base Edit_Model Edit_Spec.
Import ListNotations.
Open Scope nat_scope.

Section Edit.
Variable readonly : bool.
Definition acts := fix acts (l : list act) (s : obj) : obj * list (option nat) * bool :=
    match l with
    | [] => (s, [], false)
    | Look :: r => let '(s', seen, x) := acts r s in (s', o_doc s :: seen, x)
    | Do o' :: r =>
        let '(s1, seen1, x1) := run readonly o' s in
        if x1 then (s1, seen1, true) else let '(s2, seen2, x2) := acts r s1 in (s2, seen1 ++ seen2, x2)
    | Raise :: r => (s, [], true)
    end.
Lemma run_cursor : forall doc body n s, run readonly (Cursor doc body n) s =
  let '(s1, seen, x) := acts body (mk_obj (Some doc) 0) in
  if x then (s1, seen, true) else if readonly then (mk_obj None (o_changes s1), seen, false)
  else match n with Some n => (mk_obj None n, seen, false) | None => (s1, seen, true) end.
Proof. reflexivity. Qed.
Lemma run_range : forall body s, run readonly (Range body) s = acts body s.
Proof. reflexivity. Qed.
Lemma acts_looks : forall body s, looks body -> exists seen, acts body s = (s, seen, false) /\ List.length seen = List.length body /\ Forall (fun d => d = o_doc s) seen.
Proof.
  induction body as [|a body IH]; intros s L; [exists []; auto|]. inversion L as [|? ? A L']; subst. destruct (IH s L') as (seen & E & N & F).
  exists (o_doc s :: seen). cbn [acts]. rewrite E. split; [reflexivity|]. split; [cbn; now rewrite N|constructor; auto].
Qed.
Lemma run_simple : forall o s, simple readonly o -> o_doc s = None -> exists s' seen, run readonly o s = (s', seen, false) /\ answers o seen /\ o_doc s' = None /\
  o_changes s' = match o with Cursor _ _ (Some n) => if readonly then 0 else n | _ => o_changes s end.
Proof.
  intros o s P D. destruct P as [doc body n L|body L].
  - rewrite run_cursor. destruct (acts_looks body (mk_obj (Some doc) 0) L) as (seen & E & N & F). rewrite E. exists (mk_obj None (if readonly then 0 else n)), seen.
    split; [destruct readonly; reflexivity|]. split; [now constructor|]. split; reflexivity.
  - rewrite run_range. destruct (acts_looks body s L) as (seen & E & N & F). rewrite E. exists s, seen. split; [reflexivity|]. split; [constructor; [exact N|now rewrite D in F]|]. auto.
Qed.

Lemma history_simple : forall l s, Forall (simple readonly) l -> o_doc s = None -> exists s' out, history readonly l s = (s', out) /\ answered l out /\ o_doc s' = None /\
  (exists n, last_changes readonly l n /\ (o_changes s' = n \/ (Forall (fun o => exists body, o = Range body) l /\ o_changes s' = o_changes s))).
Proof.
  induction l as [|o l IH]; intros s F D.
  - exists s, []. split; [reflexivity|]. split; [constructor|]. split; [exact D|]. exists 0. split; [now constructor|right; auto].
  - inversion F as [|? ? P F']; subst. destruct (run_simple o s P D) as (s1 & seen & E & A & D1 & C1). destruct (IH s1 F' D1) as (s2 & out & E2 & A2 & D2 & n & LC & C2).
    exists s2, ((seen, false) :: out). cbn [history]. rewrite E, E2. split; [reflexivity|]. split; [now constructor|]. split; [exact D2|].
    destruct LC as [l AR|a doc body n l AR].
    + destruct P as [doc body n L|body L].
      * exists (if readonly then 0 else n). split; [exact (last_some readonly [] doc body n l AR)|left]. destruct C2 as [C2|[_ C2]]; [|congruence].
        rewrite <- C1, C2. clear - AR E2 C2 D1 F'. 
        revert s1 D1 out E2. induction AR as [|x l [b ->] AR IHl]; intros s1 D1 out E2; cbn [history] in E2; [injection E2 as <- <-; congruence|].
        inversion F' as [|? ? P F'']; subst. destruct (run_simple (Range b) s1 P D1) as (s3 & seen & E & _ & D3 & C3). rewrite E in E2. destruct (history readonly l s3) as [s4 more] eqn:H. injection E2 as <- <-.
        rewrite (IHl F'' s3 D3 more H). exact C3.
      * exists 0. split; [constructor; constructor; eauto|]. destruct C2 as [C2|[AR' C2]]; [left; exact C2|right; split; [constructor; eauto|congruence]].
    + exists (if readonly then 0 else n). split; [exact (last_some readonly (o :: a) doc body n l AR)|left]. destruct C2 as [C2|[AR' C2]]; [exact C2|].
      exfalso. apply Forall_app in AR'. destruct AR' as [_ AR']. inversion AR' as [|? ? [b B] _]; discriminate.
Qed.
(** Through every history of edits that succeed: document() is the document that is being edited, and none else; afterwards there is none, and changes() is
    the number of changes of the last edit of a document.
    Missing for the full claim: edits that raise an exception (C106_raise_finding), that start another edit with the same object
    (C106_nested_finding), and a number of changes for edits without a document (C106_stale_finding). *)
Theorem C106_history_partial : forall l, Forall (simple readonly) l -> exists s out n, history readonly l new_obj = (s, out) /\ answered l out /\ o_doc s = None /\
  last_changes readonly l n /\ o_changes s = n.
Proof.
  intros l F. destruct (history_simple l new_obj F eq_refl) as (s & out & E & A & D & n & LC & C). exists s, out, n. split; [exact E|]. split; [exact A|]. split; [exact D|]. split; [exact LC|].
  destruct C as [C|[AR C]]; [exact C|]. rewrite C. cbn. destruct LC as [l _|a doc body n l _]; [reflexivity|]. exfalso. apply Forall_app in AR. destruct AR as [_ AR]. inversion AR as [|? ? [b B] _]; discriminate.
Qed.

(** After an edit that raised an exception, document() still is the document. *)
Theorem C106_raise_finding : forall doc body rest n s, looks body -> exists seen, run readonly (Cursor doc (body ++ Raise :: rest) n) s = (mk_obj (Some doc) 0, seen, true).
Proof.
  intros doc body rest n s L. rewrite run_cursor. assert (X : exists seen, acts (body ++ Raise :: rest) (mk_obj (Some doc) 0) = (mk_obj (Some doc) 0, seen, true)).
  { induction body as [|a body IH]; [exists []; reflexivity|]. inversion L as [|? ? A L']; subst. destruct (IH L') as [seen E]. exists (Some doc :: seen). cbn [app acts]. rewrite E. reflexivity. }
  destruct X as [seen ->]. exists seen. reflexivity.
Qed.
(** After another edit with the same object, document() is None for the rest of the edit. *)
Theorem C106_nested_finding : forall doc doc' n n' s, exists s', run readonly (Cursor doc [Do (Cursor doc' [] (Some n')); Look] (Some n)) s = (s', [None], false).
Proof. intros doc doc' n n' s. rewrite run_cursor. cbn [acts]. rewrite run_cursor. cbn [acts]. destruct readonly; eexists; reflexivity. Qed.
(** An edit of nodes leaves the number of changes of an earlier edit. *)
Theorem C106_stale_finding : forall body s, looks body -> exists seen, run readonly (Range body) s = (s, seen, false).
Proof. intros body s L. rewrite run_range. destruct (acts_looks body s L) as (seen & E & _). eauto. Qed.
End Edit.

Print Assumptions C106_history_partial.
Print Assumptions C106_raise_finding.
Print Assumptions C106_nested_finding.
Print Assumptions C106_stale_finding.

Example C106_witness : let l := [Cursor 1 [Look; Look] (Some 5); Range [Look]; Cursor 2 [Look] (Some 3); Range []] in
  Forall (simple false) l /\ history false l new_obj = (mk_obj None 3, [([Some 1; Some 1], false); ([None], false); ([Some 2], false); ([], false)]).
Proof. split; [repeat constructor|reflexivity]. Qed.
