(** Theorems about lily.Lookup: C73, C74. *)
From Coq Require Import List Bool PeanoNat Lia.
From Verif Require Import Base Lookup_Model Lookup_Spec Lookup_Proofs.
Import ListNotations.
Open Scope nat_scope.

(** ** C73: preceding_nodes() goes back through everything that is read before the node *)
Theorem C73_preceding : forall name value file load s path out, @read_before name value file load s path out -> proper_scope s path ->
  exists k, forall fuel, k <= fuel -> preceding_nodes name value file load fuel s path = Ok (rev out).
Proof. intros name value file load. exact (preceding_ok load). Qed.
Print Assumptions C73_preceding.
(** If include chains are finite (C59), reading comes to an end. *)
Theorem C73_total : forall name value file load N, (forall s f dom, load s f = Some dom -> @depth name value file s < N) ->
  forall s path, exists out, read_before load s path out.
Proof. intros name value file load. exact (read_before_total load). Qed.
Print Assumptions C73_total.
(** Without a scope: the nodes before it in the blocks it is in. *)
Theorem C73_local : forall name value file (root : dn name value file) path, proper root path ->
  preceding_nodes_local _ _ _ root path = rev (map snd (concat (levels [] root path))).
Proof. intros name value file. exact local_ok. Qed.
Print Assumptions C73_local.

(** ** C74: find_assignment() finds the last assignment that is read before the node *)
Theorem C74_found : forall name value file name_eqb load s path out nm v s',
  @read_before name value file load s path out -> proper_scope s path ->
  (exists fuel, find_assignment _ _ _ name_eqb load fuel nm s path = Ok (Some (v, s'))) <->
  exists l1 n l2, out = l1 ++ (n, s') :: l2 /\ assigns name_eqb nm n v /\ forall m t w, In (m, t) l2 -> ~ assigns name_eqb nm m w.
Proof.
  intros name value file name_eqb load s path out nm v s' R P. destruct (preceding_ok load s path out R P) as (k & H).
  assert (M : forall fuel r, find_assignment _ _ _ name_eqb load fuel nm s path = Ok r -> find_in _ _ _ name_eqb nm (rev out) = r).
  { intros fuel r E. unfold find_assignment in E. destruct (preceding_nodes _ _ _ load fuel s path) as [l|e] eqn:PN; [|discriminate]. cbn in E. injection E as <-.
    assert (l = rev out) as ->; [|reflexivity].
    assert (G : forall s path l fuel, preceding_nodes name value file load fuel s path = Ok l -> preceding_nodes name value file load (fuel + k) s path = Ok l).
    { clear. assert (RA : forall s l fuel r, run_all name value file load fuel s l = Ok r -> run_all name value file load (fuel + k) s l = Ok r).
      { intros s l. induction l as [|a l IH]; intros fuel r E; [exact E|]. cbn [run_all] in *. destruct (run _ _ _ load fuel s (preceding _ _ _ a) []) as [x|] eqn:X; [|discriminate]. rewrite (run_more load _ _ _ _ _ k X). cbn [bindr] in *.
        destruct (run_all _ _ _ load fuel s l) as [y|] eqn:Y; [|discriminate]. rewrite (IH _ _ Y). exact E. }
      fix rec 1. intros [parent node dom] path l fuel E. cbn [preceding_nodes] in *.
      destruct (run_all _ _ _ load fuel (Scope _ _ _ parent node dom) (ancestors _ _ _ dom (rev path))) as [x|] eqn:X; [|discriminate]. rewrite (RA _ _ _ _ X). cbn [bindr] in *.
      destruct parent as [ps|]; [|exact E]. destruct node as [p|]; [|exact E]. destruct (preceding_nodes _ _ _ load fuel ps p) as [y|] eqn:Y; [|discriminate]. rewrite (rec _ _ _ _ Y). exact E. }
    apply G in PN. rewrite H in PN by lia. congruence. }
  assert (X : (exists fuel, find_assignment _ _ _ name_eqb load fuel nm s path = Ok (Some (v, s'))) <-> find_in _ _ _ name_eqb nm (rev out) = Some (v, s')).
  { split; [intros (fuel & E); exact (M fuel _ E)|]. intros E. exists k. unfold find_assignment. rewrite H by lia. cbn. rewrite E. reflexivity. }
  rewrite X. unfold find_in. clear X M H. split.
  - destruct (find _ (rev out)) as [[n t]|] eqn:F; [|discriminate]. intros [= <- <-]. apply find_last in F. destruct F as (l1 & l2 & -> & A & N). exists l1, n, l2. split; [reflexivity|]. split; [apply assigns_is; auto|].
    intros m t' w I. apply not_assigns. apply (N (m, t') I).
  - intros (l1 & n & l2 & -> & A & N). apply assigns_is in A. destruct A as (A & <-).
    assert (find (fun x => is_assignment _ _ _ name_eqb nm (fst x)) (rev (l1 ++ (n, s') :: l2)) = Some (n, s')) as ->; [|reflexivity].
    apply find_last. exists l1, l2. split; [reflexivity|]. split; [exact A|]. intros [m t] I. cbn. apply not_assigns. intros w. eapply N; exact I.
Qed.
Print Assumptions C74_found.
Theorem C74_none : forall name value file name_eqb load s path out nm,
  @read_before name value file load s path out -> proper_scope s path ->
  (forall m t w, In (m, t) out -> ~ assigns name_eqb nm m w) ->
  exists k, forall fuel, k <= fuel -> find_assignment _ _ _ name_eqb load fuel nm s path = Ok None.
Proof.
  intros name value file name_eqb load s path out nm R P N. destruct (preceding_ok load s path out R P) as (k & H). exists k. intros fuel L. unfold find_assignment. rewrite H by lia. cbn. unfold find_in.
  assert (find (fun x => is_assignment _ _ _ name_eqb nm (fst x)) (rev out) = None) as ->; [|reflexivity]. apply Lookup_Proofs.find_none. intros [m t] I. cbn. apply not_assigns. intros w. eapply N; exact I.
Qed.
Print Assumptions C74_none.
(** Without a scope. *)
Theorem C74_local : forall name value file name_eqb (root : dn name value file) path nm v, proper root path ->
  find_assignment_local _ _ _ name_eqb nm root path = Some v <->
  exists l1 n l2, map snd (concat (levels [] root path)) = l1 ++ n :: l2 /\ assigns name_eqb nm n v /\ forall m w, In m l2 -> ~ assigns name_eqb nm m w.
Proof.
  intros name value file name_eqb root path nm v P. unfold find_assignment_local. rewrite (local_ok _ _ P). split.
  - destruct (find _ _) as [n|] eqn:F; [|discriminate]. cbn. intros [= <-]. apply find_last in F. destruct F as (l1 & l2 & -> & A & N). exists l1, n, l2. split; [reflexivity|]. split; [apply assigns_is; auto|].
    intros m w I. apply not_assigns. apply (N m I).
  - intros (l1 & n & l2 & -> & A & N). apply assigns_is in A. destruct A as (A & <-).
    assert (find (is_assignment _ _ _ name_eqb nm) (rev (l1 ++ n :: l2)) = Some n) as ->; [|reflexivity].
    apply find_last. exists l1, l2. split; [reflexivity|]. split; [exact A|]. intros m I. apply not_assigns. intros w. eapply N; exact I.
Qed.
Print Assumptions C74_local.

(** file 1: a = 1, b = 2; file 2: \include file 1, b = 3, \include file 3; file 3: { \a \b } *)
Definition asg (n v : nat) : dn nat nat nat := DN _ _ _ (Assignment _ _ _ (Some n) (Some v)) [].
Definition inc (f : nat) : dn nat nat nat := DN _ _ _ (Include _ _ _ f) [].
Definition doc (l : list (dn nat nat nat)) : dn nat nat nat := DN _ _ _ (Document _ _ _) l.
Definition leaf : dn nat nat nat := DN _ _ _ (Other _ _ _) [].
Definition ex_load (s : scope nat nat nat) (f : nat) : option (dn nat nat nat) :=
  if depth s <? 3 then match f with 1 => Some (doc [asg 7 1; asg 8 2]) | 3 => Some (doc [DN _ _ _ (Other _ _ _) [leaf; leaf]]) | _ => None end else None.
Definition file2 : scope nat nat nat := Scope _ _ _ None None (doc [inc 1; asg 8 3; inc 3]).
Definition file3 : scope nat nat nat := Scope _ _ _ (Some file2) (Some [2]) (doc [DN _ _ _ (Other _ _ _) [leaf; leaf]]).
Example C74_witness : proper_scope file3 [0; 1] /\ (forall s f dom, ex_load s f = Some dom -> depth s < 3) /\
  find_assignment _ _ _ Nat.eqb ex_load 20 7 file3 [0; 1] = Ok (Some (Some 1, Scope _ _ _ (Some file2) (Some [0]) (doc [asg 7 1; asg 8 2]))) /\
  find_assignment _ _ _ Nat.eqb ex_load 20 8 file3 [0; 1] = Ok (Some (Some 3, file2)) /\
  find_assignment _ _ _ Nat.eqb ex_load 20 9 file3 [0; 1] = Ok None.
Proof.
  split; [|split; [|repeat split]].
  - unfold file3, file2. constructor; [constructor|].
    + split; [eexists; reflexivity|]. intros a b n E A B N. destruct a as [|x a]; [congruence|]. injection E as <- E. symmetry in E. apply app_eq_nil in E. destruct E. congruence.
    + split; [eexists; reflexivity|]. intros a b n E A B N. destruct a as [|x a]; [congruence|]. injection E as <- E. destruct a as [|y a]; [injection N as <-; discriminate|]. injection E as <- E. symmetry in E. apply app_eq_nil in E. destruct E. congruence.
  - intros s f dom. unfold ex_load. destruct (depth s <? 3) eqn:D; [|discriminate]. intros _. apply Nat.ltb_lt. exact D.
Qed.
(** What is read before the second leaf of file 3, last first: the assignment of file 2, the two of file 1; nothing inside the music around it. *)
Example C73_witness : proper_scope file3 [0; 1] /\ (forall s f dom, ex_load s f = Some dom -> depth s < 3) /\
  exists l, preceding_nodes _ _ _ ex_load 20 file3 [0; 1] = Ok l /\ map fst l = [asg 8 3; asg 8 2; asg 7 1].
Proof.
  destruct C74_witness as (P & L & _). split; [exact P|]. split; [exact L|]. eexists. split; reflexivity.
Qed.
