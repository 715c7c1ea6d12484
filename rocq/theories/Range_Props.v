(** Ranges: the properties C43 to C47. *)
From Coq Require Import List ZArith Bool PeanoNat Sorting.Sorted Lia ZifyBool ZifyNat.
From Verif Require Import Base Node_Model Node_Spec Node_Proofs Node_Nav Node_More Node_Props
  Range_Model Range_Spec Range_Proofs Range_Machine Range_Nodes Range_Extract Range_Member Range_Edit.
Import ListNotations.

(** A tree for the examples: 0 has the children 1, 6 and 7; 1 has 2 and 3; 3 has 4 and 5; 7 has 8 and 9. *)
Definition doc : tree := T 0 [T 1 [T 2 []; T 3 [T 4 []; T 5 []]]; T 6 []; T 7 [T 8 []; T 9 []]].

Ltac reach_tac := repeat (first [apply reach_here | eapply reach_down; [reflexivity|]]).
Ltac there := eexists; reach_tac.

(** ** C43: nodes() *)

(** With a start node that is not after the end node: the nodes from the start
    node to the end node, in document order, except those below a node for which
    False was sent.
    Missing for the full claim: an end before the start (C43_empty_finding). *)
Theorem C43_nodes_partial : forall prune t s e, s <> [] -> valid t (Some s) -> valid t e -> match e with Some e => upto s e | None => True end ->
  exists f0 r ys, new_range t (Some s) e = Ok r /\ (forall fuel, f0 <= fuel -> exists r', range_nodes fuel prune r = Ok (ys, r')) /\
    lists t before (fun p => between (Some s) e p /\ ~ skipped t (between (Some s) e) prune p) ys.
Proof. exact nodes_lists. Qed.
Print Assumptions C43_nodes_partial.

(** Without a start boundary: the nodes below the ancestor up to the end node. *)
Theorem C43_nodes_from_start : forall prune t s e, s = None \/ s = Some [] -> valid t e ->
  exists f0 r ys, new_range t s e = Ok r /\ (forall fuel, f0 <= fuel -> exists r', range_nodes fuel prune r = Ok (ys, r')) /\
    lists t before (fun p => p <> [] /\ between None e p /\ ~ skipped t (fun q => q <> [] /\ between None e q) prune p) ys.
Proof.
  intros prune t s e HS VE. destruct (nodes_spec_none prune t s e HS VE) as (f0 & r & E & F). exists f0, r, (seen false prune None e t). split; [exact E|]. split; [exact F|].
  exact (seen_lists false prune t None e).
Qed.
Print Assumptions C43_nodes_from_start.

(** With no boundaries it equals descendants(). *)
Lemma seen_all rv prune : forall t, seen rv prune None None t = fpre rv prune (children t).
Proof.
  induction t as [n ts IH] using tree_ind2. rewrite seen_eq. cbn [children]. rewrite Forall_forall in IH.
  assert (X : forall l k, k + List.length l <= List.length ts -> (forall c, In c l -> In c ts) -> fseen rv prune None None (List.length ts) k l = fpre rv prune l).
  { induction l as [|c l IHl]; intros k L H; [reflexivity|]. cbn [fseen fpre List.length] in *. rewrite IHl; [|lia|intros; apply H; now right].
    unfold within. cbn [lo hi]. replace (0 <=? k) with true by lia. replace (Z.of_nat k <=? Z.of_nat (List.length ts) - 1)%Z with true by lia. cbn [andb]. unfold block. cbn [inner]. f_equal.
    destruct c as [cn cs]. rewrite pre_eq. cbn [tid]. f_equal. destruct (prune cn); [reflexivity|]. apply (IH (T cn cs)). apply H. now left. }
  apply X; [lia|auto].
Qed.

Theorem C43_unbounded : forall {B} (h : heap B) prune t, rep h t ->
  exists f0 r ys, new_range t None None = Ok r /\ (forall fuel, f0 <= fuel -> exists r', range_nodes fuel prune r = Ok (ys, r')) /\
    (forall fuel, f0 <= fuel -> descendants fuel h false prune (tid t) = Ok ys).
Proof.
  intros B h prune t RP. destruct (nodes_spec_none prune t None None ltac:(auto) Logic.I) as (f0 & r & E & F). exists (f0 + S (List.length (seen false prune None None t))), r, (seen false prune None None t).
  split; [exact E|]. split; [intros fuel L; apply F; lia|]. intros fuel L. destruct t as [n ts]. rewrite seen_all in *. cbn [children tid] in *. apply descendants_spec; [exact RP|lia].
Qed.
Print Assumptions C43_unbounded.

(** descendants() of a new range: also the ancestors of the start node, and in both directions. *)
Theorem C43_descendants : forall (rv : bool) prune t s e, valid t s -> valid t e ->
  exists f0 r ys, new_range t s e = Ok r /\ (forall fuel, f0 <= fuel -> exists r', range_descendants fuel rv prune r = Ok (ys, r')) /\
    lists t (if rv then mirror else before) (fun p => p <> [] /\ reached s e p /\ ~ skipped t (fun q => q <> [] /\ reached s e q) prune p) ys.
Proof.
  intros rv prune t s e VS VE. destruct (descendants_fresh rv prune t s e VS VE) as (f0 & r & E & F). exists f0, r, (seen rv prune s e t). split; [exact E|]. split; [exact F|].
  assert (X := seen_lists rv prune t s e). destruct rv; exact X.
Qed.
Print Assumptions C43_descendants.

(** The truth value of a new range: there is a node in it (or an ancestor of the start node below the range's own). *)
Theorem C43_bool : forall t s e, valid t s -> valid t e ->
  exists r, new_range t s e = Ok r /\ (range_bool r = true <-> exists p, p <> [] /\ exists_at t p /\ reached s e p).
Proof.
  intros t s e VS VE. destruct (descendants_fresh false (fun _ => false) t s e VS VE) as (_ & r & E & _). exists r. split; [exact E|].
  destruct t as [n ts].
  assert (SP : range_bool r = true <-> exists i, i < List.length ts /\ within s e (List.length ts) i = true).
  { pose proof (valid_hi _ _ _ VE) as HH. pose proof (valid_lo _ _ _ VS) as HL. revert E. unfold new_range, new_level, range_bool, base_level, within. intros E.
    assert (B : (l_start (List.last (r_below r) (r_top r)) = Z.of_nat (lo s) /\ l_end (List.last (r_below r) (r_top r)) = hi e (List.length ts))%Z).
    { destruct s as [[|x s]|]; destruct e as [[|y e]|]; cbn [truthy nth_error bindr] in E; injection E as <-; split; reflexivity. }
    destruct B as [-> ->]. split.
    - intros H. exists (lo s). lia.
    - intros (i & H). lia. }
  rewrite SP. split.
  - intros (i & L & W). exists [i]. split; [discriminate|]. destruct (nth_error ts i) as [c|] eqn:EC; [|apply nth_error_None in EC; lia].
    split; [apply exists_cons; exists c; split; [exact EC|exists c; constructor]|]. apply (within_reached _ _ (List.length ts)); [exact L|]. split; [exact W|apply reached_nil].
  - intros ([|i p] & NE & X & R); [congruence|]. apply exists_cons in X. destruct X as (c & EC & _). assert (L : i < List.length ts) by (apply nth_error_Some; congruence). exists i. split; [exact L|]. apply (within_reached s e (List.length ts) i p L) in R. tauto.
Qed.
Print Assumptions C43_bool.

Example C43_witness : valid doc (Some [0; 1]) /\ valid doc (Some [2; 0]) /\ upto [0; 1] [2; 0] /\
  (exists r r', new_range doc (Some [0; 1]) (Some [2; 0]) = Ok r /\ range_nodes 40 (fun _ => false) r = Ok ([3; 4; 5; 6; 7; 8], r')) /\
  (exists r r', new_range doc (Some [0; 1]) (Some [2; 0]) = Ok r /\ range_nodes 40 (fun n => n =? 7) r = Ok ([3; 4; 5; 6; 7], r')) /\
  (exists r r', new_range doc (Some [0; 1]) (Some [2; 0]) = Ok r /\ range_descendants 40 true (fun _ => false) r = Ok ([7; 8; 6; 1; 3; 5; 4], r')).
Proof.
  split; [there|]. split; [there|]. split; [apply upto_cons; left; lia|]. split; [|split]; eexists; eexists; (split; [reflexivity|vm_compute; reflexivity]).
Qed.

(** Finding: when the end node is before the start node, nodes() still yields the start node and what is below it. *)
Theorem C43_empty_finding : exists r r', new_range doc (Some [2]) (Some [1]) = Ok r /\ range_bool r = false /\ range_nodes 40 (fun _ => false) r = Ok ([7; 8; 9], r').
Proof. eexists. eexists. split; [reflexivity|]. split; vm_compute; reflexivity. Qed.
Print Assumptions C43_empty_finding.

(** ** C44: extract_tree() *)

(** At any node [p] that intersects the range: its nodes that intersect the range,
    in the same arrangement. *)
Theorem C44_extract : forall t s e p, valid t s -> valid t e -> exists_at t p -> reached s e p ->
  exists f0 r r1 c t', new_range t s e = Ok r /\ goto_trail r (Some p) = Ok r1 /\ reach t p c /\ current r1 = Ok c /\
    (forall fuel, f0 <= fuel -> extract_tree fuel r1 = Ok t') /\ tid t' = tid c /\ is_part t' c (fun q => reached s e (p ++ q)).
Proof.
  intros t s e p VS VE EX R. destruct (extract_here t s e p VS VE EX) as (f0 & r & r1 & c & E & G & RC & C & F). exists f0, r, r1, c, (restrict (inners s p) (inners e p) c).
  split; [exact E|]. split; [exact G|]. split; [exact RC|]. split; [exact C|]. split; [exact F|]. split; [apply restrict_tid|].
  assert (VV : forall u, valid t u -> valid c (inners u p)).
  { clear - RC. intros u. revert u. induction RC as [t|n ts i d p m E RC IH]; intros u V; [exact V|]. cbn [inners]. apply IH. eapply valid_inner; eauto. }
  destruct (restrict_part c (inners s p) (inners e p) (VV s VS) (VV e VE)) as (off & P1 & P2). exists off. split; [exact P1|]. intros q. rewrite <- P2.
  assert (APP : exists_at c q -> exists_at t (p ++ q)).
  { clear - RC. induction RC as [t|n ts i d p m E RC IH]; intros X; [exact X|]. cbn [app]. apply exists_cons. exists d. auto. }
  split; intros [X Y]; (split; [|exact Y]); apply (reached_inners s e p q t (APP Y) R); exact X.
Qed.
Print Assumptions C44_extract.

(** The whole range. *)
Theorem C44_extract_all : forall t s e, valid t s -> valid t e ->
  exists f0 r t', new_range t s e = Ok r /\ (forall fuel, f0 <= fuel -> extract_tree fuel r = Ok t') /\ is_part t' t (reached s e).
Proof.
  intros t s e VS VE. destruct (fresh_range t s e VS VE) as (L & E & G & N & IX). destruct (extract_from t s e VS VE) as (f0 & F). exists f0, (Range s e L []), (restrict s e t).
  split; [exact E|]. split; [|now apply restrict_part]. intros fuel LF. unfold extract_tree, from_here. cbn [r_top]. rewrite IX. replace (-1 <? -1)%Z with false by reflexivity. cbn [bindr]. destruct (level_trails L s e G) as [T1 T2]. rewrite T1, T2, N. apply F, LF.
Qed.
Print Assumptions C44_extract_all.

(** Without boundaries, the whole tree. *)
Theorem C44_full : forall t, exists f0 r, new_range t None None = Ok r /\ forall fuel, f0 <= fuel -> extract_tree fuel r = Ok t.
Proof.
  intros t. destruct (fresh_range t None None Logic.I Logic.I) as (L & E & G & N & IX). destruct (extract_from t None None Logic.I Logic.I) as (f0 & F). exists f0, (Range None None L []). split; [exact E|].
  intros fuel LF. unfold extract_tree, from_here. cbn [r_top]. rewrite IX. replace (-1 <? -1)%Z with false by reflexivity. cbn [bindr]. destruct (level_trails L None None G) as [T1 T2]. rewrite T1, T2, N. rewrite F by exact LF. now rewrite restrict_full.
Qed.
Print Assumptions C44_full.

Example C44_witness : exists r, new_range doc (Some [0; 1; 1]) (Some [2; 0]) = Ok r /\ extract_tree 60 r = Ok (T 0 [T 1 [T 3 [T 5 []]]; T 6 []; T 7 [T 8 []]]) /\
  (exists r1, goto_trail r (Some [0]) = Ok r1 /\ extract_tree 60 r1 = Ok (T 1 [T 3 [T 5 []]])) /\ reached (Some [0; 1; 1]) (Some [2; 0]) [0].
Proof.
  eexists. split; [reflexivity|]. split; [vm_compute; reflexivity|]. split; [eexists; split; [reflexivity|vm_compute; reflexivity]|]. split; [right; apply above_cons2; split; [reflexivity|apply above_nil]|apply upto_cons; left; lia].
Qed.

(** ** C45: membership *)

(** [node in range], for a node below the ancestor: it is from the start node to the
    end node.  When it is not the end node or an ancestor of it, then all its
    descendants are too. *)
Theorem C45_contains_partial : forall {B} (h : heap B) root t s e r p n, integrity h -> par h root = None -> inside h root (tid t) -> rep h t -> valid t s -> valid t e ->
  new_range t s e = Ok r -> at_path h (tid t) p n -> p <> [] ->
  exists f0 b, (forall fuel, f0 <= fuel -> contains fuel h r n = Ok b) /\ (b = true <-> between s e p) /\
    (match e with Some e => ~ (p = e \/ above p e) | None => True end -> (b = true <-> forall q, exists_at t (p ++ q) -> between s e (p ++ q))).
Proof.
  intros B h root t s e r p n I RT [pa A] RP VS VE NR AN NE. destruct (new_made t s e VS VE) as (r' & E & M). assert (r' = r) by congruence. subst r'.
  destruct (in_range_trail t s e r p M NE) as (b & TB & HB). exists (S (List.length pa + List.length p)), b. split; [|split; [exact HB|]].
  - intros fuel L. unfold contains. destruct M as (_ & _ & _ & N). unfold ancestor. rewrite N. rewrite (get_trail_in h root pa (tid t) p n fuel I RT A AN) by lia. exact TB.
  - intros NA. rewrite HB. split.
    + intros [S' E'] q _. split.
      * destruct s as [s|]; [|exact Logic.I]. eapply upto_trans; [exact S'|]. destruct q as [|x q]; [rewrite app_nil_r; now left|right; left; now exists x, q].
      * destruct e as [e|]; [|exact Logic.I]. destruct E' as [->|[AB|LF]]; [tauto|tauto|]. right. right. now apply left_of_app_l.
    + intros H. specialize (H []). rewrite app_nil_r in H. apply H. destruct (rep_at_path h p t n RP AN) as (m & R & _). now exists m.
Qed.
Print Assumptions C45_contains_partial.

(** The ancestor itself, and is_full(): everything below it is in the range. *)
Theorem C45_full : forall {B} (h : heap B) t s e r, valid t s -> valid t e -> new_range t s e = Ok r ->
  exists b, (forall fuel, contains fuel h r (tid t) = Ok b) /\ is_full r = Ok b /\ (b = true <-> forall q, exists_at t q -> reached s e q).
Proof.
  intros B h t s e r VS VE NR. destruct (new_made t s e VS VE) as (r' & E & M). assert (r' = r) by congruence. subst r'. destruct (in_range_ancestor t s e r M) as (b & E1 & E2 & H). exists b. split; [|auto].
  intros fuel. unfold contains, get_trail, ancestor. destruct M as (_ & _ & _ & N). rewrite N, Nat.eqb_refl. exact E1.
Qed.
Print Assumptions C45_full.

(** Nodes outside the tree of the range. *)
Theorem C45_outside : forall {B} (h : heap B) root t s e r n, integrity h -> par h root = None -> inside h root n -> ~ inside h (tid t) n -> valid t s -> valid t e -> new_range t s e = Ok r ->
  exists f0, forall fuel, f0 <= fuel -> contains fuel h r n = Ok false /\ intersects fuel h r n = Ok false /\ goto fuel h r n = Ok (false, r).
Proof.
  intros B h root t s e r n I RT [pn A] NI VS VE NR. destruct (new_made t s e VS VE) as (r' & E & M). assert (r' = r) by congruence. subst r'. exists (S (List.length pn)). intros fuel L.
  destruct M as (_ & _ & _ & N). unfold contains, intersects, goto, ancestor. rewrite N. rewrite (get_trail_out h root pn (tid t) n fuel I RT A NI) by lia. auto.
Qed.
Print Assumptions C45_outside.

(** [range & node]: the node or something below it is between the start and the end node. *)
Theorem C45_intersects : forall {B} (h : heap B) root t s e r p n, integrity h -> par h root = None -> inside h root (tid t) -> rep h t -> valid t s -> valid t e -> e <> Some [] ->
  match s, e with Some s, Some e => upto s e | _, _ => True end ->
  new_range t s e = Ok r -> at_path h (tid t) p n ->
  exists f0 b, (forall fuel, f0 <= fuel -> intersects fuel h r n = Ok b) /\ (b = true <-> exists q, (q = p \/ above p q) /\ exists_at t q /\ between s e q).
Proof.
  intros B h root t s e r p n I RT [pa A] RP VS VE NE U NR AN. destruct (new_made t s e VS VE) as (r' & E & M). assert (r' = r) by congruence. subst r'.
  exists (S (List.length pa + List.length p)), (trail_intersects r p). split.
  - intros fuel L. unfold intersects. destruct M as (_ & _ & _ & N). unfold ancestor. rewrite N. now rewrite (get_trail_in h root pa (tid t) p n fuel I RT A AN) by lia.
  - rewrite (intersects_trail t s e r p M NE). split.
    + destruct (rep_at_path h p t n RP AN) as (m & R & _). apply (reached_below t s e p VS); [now exists m|exact U].
    + intros (q & Q & _ & BT). eapply between_below; eauto.
Qed.
Print Assumptions C45_intersects.

(** goto() succeeds exactly for those; then it is the current node, and in_range()
    tells whether everything below it intersects the range. *)
Theorem C45_goto : forall {B} (h : heap B) root t s e r p n, integrity h -> par h root = None -> inside h root (tid t) -> rep h t -> valid t s -> valid t e -> e <> Some [] ->
  new_range t s e = Ok r -> at_path h (tid t) p n ->
  exists f0 ok r', (forall fuel, f0 <= fuel -> goto fuel h r n = Ok (ok, r')) /\ (ok = true <-> reached s e p) /\
    (ok = false -> r' = r) /\
    (ok = true -> (exists c, current r' = Ok c /\ tid c = n) /\ range_trail r' = map Z.of_nat p /\
      exists b, in_range r' = Ok b /\ (b = true <-> forall q, exists_at t (p ++ q) -> reached s e (p ++ q))).
Proof.
  intros B h root t s e r p n I RT [pa A] RP VS VE NE NR AN. destruct (new_made t s e VS VE) as (r0 & E & M). assert (r0 = r) by congruence. subst r0.
  destruct (rep_at_path h p t n RP AN) as (m & R & TM). destruct (goto_pos t s e r p M VS VE (ex_intro _ m R)) as (r' & c & G & M' & RC & C & TR & b & IR & HB).
  assert (GT : forall fuel, S (List.length pa + List.length p) <= fuel -> get_trail fuel h (tid (ancestor r)) n = Ok (Some p)).
  { intros fuel L. destruct M as (_ & _ & _ & N). unfold ancestor. rewrite N. apply (get_trail_in h root pa (tid t) p n fuel I RT A AN). lia. }
  exists (S (List.length pa + List.length p)), (trail_intersects r p), (if trail_intersects r p then r' else r). split; [|split; [|split]].
  - intros fuel L. unfold goto. rewrite (GT fuel L). cbn [bindr]. destruct (trail_intersects r p); [now rewrite G|reflexivity].
  - apply (intersects_trail t s e r p M NE).
  - intros ->. reflexivity.
  - intros TI. assert (RE := proj1 (intersects_trail t s e r p M NE) TI). rewrite TI. split; [exists c; split; [exact C|]; assert (c = m) by (eapply reach_fun; eauto); congruence|]. split; [exact TR|].
    exists b. split; [exact IR|]. rewrite HB. unfold all_below. assert (APP : forall q, exists_at c q <-> exists_at t (p ++ q)).
    { clear - RC. intros q. induction RC as [t|n ts i d p m E RC IH]; [reflexivity|]. cbn [app]. rewrite exists_cons, IH. split; [eauto|]. intros (d' & E' & X). congruence. }
    split; intros H q Q; specialize (H q); rewrite APP in *; apply (reached_inners s e p q t ltac:(assumption || apply APP; assumption) RE); auto.
Qed.
Print Assumptions C45_goto.

(** The example heap has the tree [exdoc]. *)
Definition exdoc : tree := T 4 [T 3 [T 0 []; T 1 []]; T 2 []].

Lemma exdoc_rep : rep ex exdoc.
Proof. cbn. repeat split. Qed.

Example C45_witness : integrity ex /\ par ex 4 = None /\ inside ex 4 (tid exdoc) /\ rep ex exdoc /\ valid exdoc (Some [0; 1]) /\ valid exdoc (Some [1]) /\ upto [0; 1] [1] /\
  exists r, new_range exdoc (Some [0; 1]) (Some [1]) = Ok r /\ contains 9 ex r 1 = Ok true /\ contains 9 ex r 3 = Ok false /\ contains 9 ex r 0 = Ok false /\ intersects 9 ex r 3 = Ok true /\ intersects 9 ex r 0 = Ok false /\
    exists r', goto 9 ex r 3 = Ok (true, r') /\ in_range r' = Ok false.
Proof.
  split; [exact ex_integrity|]. split; [reflexivity|]. split; [exists []; constructor|]. split; [exact exdoc_rep|]. split; [there|]. split; [there|]. split; [apply upto_cons; left; lia|].
  eexists. split; [reflexivity|]. repeat (split; [vm_compute; reflexivity|]). eexists. split; vm_compute; reflexivity.
Qed.

(** Findings: the documentation says that a node is in the range when all its
    descendants are.  A node on the end trail is in the range although
    a child is not; and a node that is before the start node, although everything
    below it is at or after it, is not ([in_range()] is True there). *)
Theorem C45_contains_finding :
  (exists r, new_range exdoc None (Some [0; 0]) = Ok r /\ contains 9 ex r 3 = Ok true /\ contains 9 ex r 1 = Ok false) /\
  (exists r r', new_range exdoc (Some [0; 0]) None = Ok r /\ contains 9 ex r 3 = Ok false /\ goto 9 ex r 3 = Ok (true, r') /\ in_range r' = Ok true).
Proof.
  split; [eexists; split; [reflexivity|]; split; vm_compute; reflexivity|]. eexists. eexists. split; [reflexivity|]. repeat (split; [vm_compute; reflexivity|]). vm_compute. reflexivity.
Qed.
Print Assumptions C45_contains_finding.

(** Finding: when the end node is the ancestor itself, no node is in the range, but all intersect with it. *)
Theorem C45_intersects_finding : exists r r', new_range exdoc None (Some []) = Ok r /\ range_nodes 9 (fun _ => false) r = Ok ([], r') /\ contains 9 ex r 2 = Ok false /\ intersects 9 ex r 2 = Ok true.
Proof. eexists. eexists. split; [reflexivity|]. repeat (split; [vm_compute; reflexivity|]). vm_compute. reflexivity. Qed.
Print Assumptions C45_intersects_finding.

(** ** C46: from_nodes() *)

Lemma follow_spec t p m : reach t p m -> follow t p = Ok m.
Proof. intros R. induction R as [t|n ts i c p t E R IH]; [reflexivity|]. cbn [follow]. unfold item_at. rewrite Nat2Z.id. cbn [children]. now rewrite E. Qed.

Lemma range_of_nodes {B} (h : heap B) t anc (s e : option (list nat)) (a b : option nat) : rep h t -> tid t = anc ->
  match s, a with Some p, Some n => at_path h anc p n | None, None => True | _, _ => False end ->
  match e, b with Some p, Some n => at_path h anc p n | None, None => True | _, _ => False end ->
  exists r na nb, new_range t s e = Ok r /\ ancestor r = t /\ start_node r = Ok na /\ end_node r = Ok nb /\ option_map tid na = a /\ option_map tid nb = b.
Proof.
  intros RP <- HA HB.
  assert (X : forall u c, match u, c with Some p, Some n => at_path h (tid t) p n | None, None => True | _, _ => False end ->
    valid t u /\ exists nc, match u with None => Ok None | Some p => let! n := follow t p in Ok (Some n) end = Ok nc /\ option_map tid nc = c).
  { intros u c H. destruct u as [p|], c as [n|]; try contradiction; [|split; [exact Logic.I|exists None; auto]].
    destruct (rep_at_path h p t n RP H) as (m & R & <-). split; [now exists m|]. exists (Some m). rewrite (follow_spec t p m R). auto. }
  destruct (X s a HA) as (VS & na & NA & TA). destruct (X e b HB) as (VE & nb & NB & TB). destruct (new_made t s e VS VE) as (r & E & M). exists r, na, nb.
  destruct M as (RS & RE & _ & N). unfold start_node, end_node, ancestor. rewrite RS, RE, N. repeat split; auto.
Qed.

(** A range from one node to another: the ancestor is the youngest node that
    has both, or the root. *)
Theorem C46_from_nodes : forall {B} (h : heap B) root a b from_root, integrity h -> par h root = None -> inside h root a -> inside h root b ->
  exists f0 anc s e, (forall fuel, f0 <= fuel -> from_nodes fuel h (Some a) (Some b) from_root = Ok (anc, Some s, Some e)) /\
    inside h anc a /\ inside h anc b /\
    (if from_root then anc = root else forall d, inside h d a -> inside h d b -> inside h d anc) /\
    forall t, rep h t -> tid t = anc -> exists r na nb, new_range t (Some s) (Some e) = Ok r /\ ancestor r = t /\ start_node r = Ok (Some na) /\ tid na = a /\ end_node r = Ok (Some nb) /\ tid nb = b.
Proof.
  intros B h rt a b fr I RT IA IB.
  assert (X : exists f0 anc s e, (forall fuel, f0 <= fuel -> from_nodes fuel h (Some a) (Some b) fr = Ok (anc, Some s, Some e)) /\ at_path h anc s a /\ at_path h anc e b /\
     (if fr then anc = rt else forall d, inside h d a -> inside h d b -> inside h d anc)).
  { destruct fr.
    - destruct IA as [pa A], IB as [pb A']. exists (S (List.length pa + List.length pb)), rt, pa, pb. split; [|auto]. intros fuel L. unfold from_nodes. cbn [negb].
      rewrite (root_spec h rt pa a fuel I RT A), (trail_spec h rt pa a fuel I RT A), (trail_spec h rt pb b fuel I RT A'), (root_spec h rt pb b fuel I RT A') by lia. cbn [bindr]. now rewrite Nat.eqb_refl.
    - destruct (C40_common h rt a b I RT IA IB) as (f0 & m & x & y & F & A1 & A2 & _ & Y). exists f0, m, x, y. split; [|auto]. intros fuel L. unfold from_nodes. cbn [negb].
      destruct (F fuel L) as (_ & _ & -> & _). reflexivity. }
  destruct X as (f0 & anc & s & e & F & A1 & A2 & Y). exists f0, anc, s, e. split; [exact F|]. split; [now exists s|]. split; [now exists e|]. split; [exact Y|]. intros t RP TT.
  destruct (range_of_nodes h t anc (Some s) (Some e) (Some a) (Some b) RP TT A1 A2) as (r & na & nb & E & AN & SN & EN & TA & TB). destruct na as [na|]; [|discriminate]. destruct nb as [nb|]; [|discriminate].
  exists r, na, nb. cbn in TA, TB. repeat split; auto; congruence.
Qed.
Print Assumptions C46_from_nodes.

(** With only one of the nodes. *)
Theorem C46_one_node : forall {B} (h : heap B) root n from_root, integrity h -> par h root = None -> inside h root n ->
  exists f0 p, (forall fuel, f0 <= fuel -> from_nodes fuel h (Some n) None from_root = Ok (root, Some p, None) /\ from_nodes fuel h None (Some n) from_root = Ok (root, None, Some p)) /\
    forall t, rep h t -> tid t = root ->
      (exists r na, new_range t (Some p) None = Ok r /\ start_node r = Ok (Some na) /\ tid na = n /\ end_node r = Ok None) /\
      (exists r na, new_range t None (Some p) = Ok r /\ end_node r = Ok (Some na) /\ tid na = n /\ start_node r = Ok None).
Proof.
  intros B h rt n fr I RT [p A]. exists (S (List.length p)), p. split.
  - intros fuel L. unfold from_nodes. rewrite (root_spec h rt p n fuel I RT A), (trail_spec h rt p n fuel I RT A) by lia. auto.
  - intros t RP TT. split.
    + destruct (range_of_nodes h t rt (Some p) None (Some n) None RP TT A Logic.I) as (r & na & nb & E & AN & SN & EN & TA & TB). destruct na as [na|]; [|discriminate]. destruct nb; [discriminate|]. exists r, na. cbn in TA. repeat split; auto; congruence.
    + destruct (range_of_nodes h t rt None (Some p) None (Some n) RP TT Logic.I A) as (r & na & nb & E & AN & SN & EN & TA & TB). destruct na; [discriminate|]. destruct nb as [nb|]; [|discriminate]. exists r, nb. cbn in TB. repeat split; auto; congruence.
Qed.
Print Assumptions C46_one_node.

(** Nodes of different trees, or no nodes at all. *)
Theorem C46_error : forall {B} (h : heap B) r1 r2 a b from_root, integrity h -> par h r1 = None -> par h r2 = None -> r1 <> r2 -> inside h r1 a -> inside h r2 b ->
  exists f0, forall fuel, f0 <= fuel -> from_nodes fuel h (Some a) (Some b) from_root = Err ValueError /\ from_nodes fuel h None None from_root = Err ValueError.
Proof.
  intros B h r1 r2 a b fr I R1 R2 N [pa A] [pb A']. exists (S (List.length pa + List.length pb)). intros fuel L. split; [|reflexivity]. unfold from_nodes. destruct fr; cbn [negb].
  - rewrite (root_spec h r1 pa a fuel I R1 A), (trail_spec h r1 pa a fuel I R1 A), (trail_spec h r2 pb b fuel I R2 A'), (root_spec h r2 pb b fuel I R2 A') by lia. cbn [bindr].
    destruct (Nat.eqb_spec r2 r1); [congruence|reflexivity].
  - destruct (disjoint_trees h r1 r2 pa pb a b fuel I R1 R2 N A A') as [_ ->]; [lia|lia|]. reflexivity.
Qed.
Print Assumptions C46_error.

Example C46_witness : integrity ex /\ par ex 4 = None /\ inside ex 4 0 /\ inside ex 4 1 /\ par ex 5 = None /\ inside ex 5 5 /\
  from_nodes 9 ex (Some 0) (Some 1) false = Ok (3, Some [0], Some [1]) /\ from_nodes 9 ex (Some 0) (Some 1) true = Ok (4, Some [0; 0], Some [0; 1]) /\
  from_nodes 9 ex (Some 0) (Some 5) false = Err ValueError.
Proof.
  split; [exact ex_integrity|]. split; [reflexivity|]. split; [exists [0; 0]; repeat (econstructor; [reflexivity|]); constructor|]. split; [exists [0; 1]; repeat (econstructor; [reflexivity|]); constructor|].
  split; [reflexivity|]. split; [exists []; constructor|]. repeat split; vm_compute; reflexivity.
Qed.

(** ** C47: editing *)

(** The child at index [k] is at index [k'] after the edit. *)
Definition same_child (L L' : level) (k k' : Z) : Prop := (k = -1 /\ k' = -1)%Z \/ (0 <= k /\ 0 <= k' /\ nth_error (children (l_node L')) (Z.to_nat k') = nth_error (children (l_node L)) (Z.to_nat k))%Z.

(** The trail leads through the child [k], for a trail that is not shorter. *)
Definition trail_at (t t' : option (list nat)) (d : nat) (k' : Z) : Prop :=
  match t, t' with
  | None, None => True
  | Some l, Some l' => if d <? List.length l then l' = firstn d l ++ Z.to_nat k' :: skipn (S d) l else l' = l
  | _, _ => False
  end.

(** Assigning a slice a:b that does not contain the children on the boundaries or the current
    child: the boundaries and the current position are at the same children as before.  And what
    comes after the current child is the same as before, or has the new nodes in place of the
    old, or is not touched when the edit is after the end. *)
Theorem C47_slice_partial : forall L s e a b v, good L s e -> children (l_node L) <> [] -> a <= b <= List.length (children (l_node L)) ->
  clear_of (l_start L) a b -> clear_of (l_end L) a b -> clear_of (l_index L) a b ->
  let L' := set_level_slice L (Some (Z.of_nat a)) (Some (Z.of_nat b)) v in
  children (l_node L') = firstn a (children (l_node L)) ++ v ++ skipn b (children (l_node L)) /\
  same_child L L' (l_start L) (l_start L') /\ same_child L L' (l_end L) (l_end L') /\ same_child L L' (l_index L) (l_index L') /\
  trail_at (l_start_trail L) (l_start_trail L') (l_depth L) (l_start L') /\ trail_at (l_end_trail L) (l_end_trail L') (l_depth L) (l_end L') /\
  forall st et bs, exists f0 ys ys',
    (forall fuel, f0 <= fuel -> (exists r, exhaust fuel false (Range st et L bs) = Ok (ys, r)) /\ (exists r, exhaust fuel false (Range st et L' bs) = Ok (ys', r))) /\
    let here := if (l_index L =? -1)%Z then l_start L else l_index L in
    let next := Z.to_nat (from_index L) in
    ((Z.of_nat b <= here)%Z -> ys' = ys) /\
    ((here < Z.of_nat a)%Z -> (l_end L < Z.of_nat a)%Z -> ys' = ys) /\
    ((here < Z.of_nat a)%Z -> (Z.of_nat b <= l_end L)%Z -> ys' = firstn (a - next) ys ++ map tid v ++ skipn (b - next) ys).
Proof.
  intros L s e a b v G NE H CS CE CI L'. assert (EQ := edited_spec L s e a b v G NE H CS CE CI). unfold edited in EQ. fold L' in EQ. destruct (good_sane L s e G) as [S1 S2 S3].
  set (ts := children (l_node L)) in *. assert (CH : children (l_node L') = splice ts a b v) by (rewrite EQ; cbn [l_node]; destruct (l_node L); reflexivity).
  assert (SL : (l_start L < Z.of_nat (List.length ts))%Z).
  { rewrite (g_lo _ _ _ G). pose proof (lo_children _ _ (g_vs _ _ _ G)) as VS. fold ts in VS. assert (0 < List.length ts) by (destruct ts; [congruence|cbn; lia]). destruct s as [[|i s]|]; cbn [lo]; lia. }
  assert (SC : forall k, (-1 <= k)%Z -> clear_of k a b -> same_child L L' k (moved k a b v)).
  { intros k K C. unfold same_child, moved, clear_of in *. rewrite CH. fold ts. destruct (Z.of_nat b <=? k)%Z eqn:Q.
    - right. split; [lia|]. split; [lia|]. replace (Z.to_nat (k + Z.of_nat (List.length v) - Z.of_nat (b - a))) with (Z.to_nat k + List.length v - (b - a)) by lia. apply splice_before; lia.
    - destruct (Z.eq_dec k (-1)) as [->|N]; [left; lia|]. right. split; [lia|]. split; [lia|]. apply splice_after; lia. }
  assert (TA : forall t k, trail_at t (moved_trail t (l_depth L) k) (l_depth L) k).
  { intros t k. unfold trail_at, moved_trail, deep, put. destruct t as [l|]; [|exact Logic.I]. destruct (l_depth L <? List.length l) eqn:D; cbn [option_map]; reflexivity. }
  assert (ES : l_start L' = moved (l_start L) a b v) by (rewrite EQ; reflexivity). assert (EE : l_end L' = moved (l_end L) a b v) by (rewrite EQ; reflexivity). assert (EI : l_index L' = moved (l_index L) a b v) by (rewrite EQ; reflexivity).
  split; [exact CH|]. split; [rewrite ES; apply SC; [lia|exact CS]|]. split; [rewrite EE; apply SC; [lia|exact CE]|]. split; [rewrite EI; apply SC; [lia|exact CI]|].
  split; [rewrite EQ; apply TA|]. split; [rewrite EQ; apply TA|]. intros st et bs.
  assert (LN : List.length (splice ts a b v) = List.length ts + List.length v - (b - a)) by (unfold splice; rewrite !app_length, firstn_length, skipn_length; lia).
  assert (SN' : sane L').
  { split; [rewrite EQ; cbn [l_start]; unfold moved; destruct (Z.of_nat b <=? l_start L)%Z eqn:?; lia|rewrite EQ; cbn [l_index]; unfold moved; destruct (Z.of_nat b <=? l_index L)%Z eqn:?; lia|].
    rewrite CH, LN. rewrite EQ. cbn [l_end]. unfold moved, clear_of in *. destruct (Z.of_nat b <=? l_end L)%Z eqn:?; lia. }
  exists (S (Z.to_nat (l_end L + 1 - from_index L) + Z.to_nat (l_end L' + 1 - from_index L'))), (map tid (slice ts (Z.to_nat (from_index L)) (Z.to_nat (l_end L + 1)))),
    (map tid (slice (splice ts a b v) (Z.to_nat (from_index L')) (Z.to_nat (l_end L' + 1)))).
  split; [intros fuel LF; split|].
  - apply exhaust_spec; [split; auto|lia].
  - rewrite <- CH. apply exhaust_spec; [exact SN'|lia].
  - cbv zeta.
    assert (FI' : from_index L' = if (l_index L =? -1)%Z then moved (l_start L) a b v else (moved (l_index L) a b v + 1)%Z).
    { unfold from_index. rewrite EQ. cbn [l_index l_start]. destruct (l_index L =? -1)%Z eqn:Q.
      - unfold moved at 1. replace (Z.of_nat b <=? l_index L)%Z with false by lia. now rewrite Q.
      - replace (moved (l_index L) a b v =? -1)%Z with false; [reflexivity|]. symmetry. unfold moved. destruct (Z.of_nat b <=? l_index L)%Z eqn:?; lia. }
    assert (EN' : l_end L' = moved (l_end L) a b v) by (rewrite EQ; reflexivity). rewrite FI', EN'. set (here := if (l_index L =? -1)%Z then l_start L else l_index L).
    assert (FR : (here <= from_index L <= here + 1)%Z) by (unfold here, from_index; destruct (l_index L =? -1)%Z; lia).
    assert (FRM : (if (l_index L =? -1)%Z then moved (l_start L) a b v else (moved (l_index L) a b v + 1)%Z) = (moved here a b v + (from_index L - here))%Z) by (unfold here, from_index; destruct (l_index L =? -1)%Z; lia).
    rewrite FRM. assert (CHR : clear_of here a b) by (unfold here; destruct (l_index L =? -1)%Z; assumption). assert (H0 : (0 <= here)%Z) by (unfold here; destruct (l_index L =? -1)%Z eqn:?; lia). clearbody here. clear FRM FI'.
    unfold moved, clear_of in *. split; [|split].
    + intros HB. replace (Z.of_nat b <=? here)%Z with true by lia. f_equal. destruct (Z.le_gt_cases (from_index L) (l_end L + 1)) as [LE|GT].
      * destruct (Z.of_nat b <=? l_end L)%Z eqn:QE.
        -- replace (Z.to_nat (here + Z.of_nat (List.length v) - Z.of_nat (b - a) + (from_index L - here))) with (Z.to_nat (from_index L) + List.length v - (b - a)) by lia.
           replace (Z.to_nat (l_end L + Z.of_nat (List.length v) - Z.of_nat (b - a) + 1)) with (Z.to_nat (l_end L + 1) + List.length v - (b - a)) by lia. apply slice_splice_before; lia.
        -- (* the end is before the edit, nothing to come *) rewrite !slice_nil; [reflexivity|lia|lia].
      * rewrite !slice_nil; [reflexivity|lia|]. destruct (Z.of_nat b <=? l_end L)%Z eqn:QE; lia.
    + intros HA HE. replace (Z.of_nat b <=? here)%Z with false by lia. replace (Z.of_nat b <=? l_end L)%Z with false by lia. f_equal. replace (here + (from_index L - here))%Z with (from_index L) by lia.
      destruct (Z.le_gt_cases (from_index L) (l_end L + 1)) as [LE|GT]; [apply slice_splice_after; lia|]. rewrite !slice_nil; [reflexivity|lia|lia].
    + intros HA HE. replace (Z.of_nat b <=? here)%Z with false by lia. replace (Z.of_nat b <=? l_end L)%Z with true by lia. replace (here + (from_index L - here))%Z with (from_index L) by lia.
      rewrite <- firstn_map, <- skipn_map, <- !map_app || (rewrite firstn_map, skipn_map, <- !map_app). f_equal.
      replace (Z.to_nat (l_end L + Z.of_nat (List.length v) - Z.of_nat (b - a) + 1)) with (Z.to_nat (l_end L + 1) + List.length v - (b - a)) by lia. apply slice_splice_within; lia.
Qed.
Print Assumptions C47_slice_partial.

(** Replacing one child: the level has the same indices; a trail through that child ends there
    now, other trails are not touched. *)
Theorem C47_item : forall L s e k v, good L s e -> k < List.length (children (l_node L)) ->
  exists L', set_level_item L (Z.of_nat k) v = Ok L' /\
    (forall i, nth_error (children (l_node L')) i = if i =? k then Some v else nth_error (children (l_node L)) i) /\
    l_start L' = l_start L /\ l_end L' = l_end L /\ l_index L' = l_index L /\
    (forall t, l_start_trail L = Some t -> l_start_trail L' = Some (if (l_depth L <? List.length t) && (Z.of_nat k =? l_start L)%Z then firstn (S (l_depth L)) t else t)) /\
    (forall t, l_end_trail L = Some t -> l_end_trail L' = Some (if (l_depth L <? List.length t) && (Z.of_nat k =? l_end L)%Z then firstn (S (l_depth L)) t else t)) /\
    (l_start_trail L = None -> l_start_trail L' = None) /\ (l_end_trail L = None -> l_end_trail L' = None).
Proof.
  intros L s e k v G K. unfold set_level_item, position. replace (Z.of_nat k <? 0)%Z with false by lia. replace ((0 <=? Z.of_nat k) && (Z.of_nat k <? Z.of_nat (List.length (children (l_node L)))))%Z with true by lia. rewrite Nat2Z.id.
  eexists. split; [reflexivity|]. cbn [l_node l_start l_end l_index l_start_trail l_end_trail]. split.
  - intros i. assert (CH : children (set_children (l_node L) (splice (children (l_node L)) k (S k) [v])) = splice (children (l_node L)) k (S k) [v]) by (destruct (l_node L); reflexivity). rewrite CH.
    destruct (Nat.eqb_spec i k) as [->|N].
    + destruct (parts (children (l_node L)) k (S k)) as (p & q & r & -> & LP & LQ); [lia|]. rewrite (splice_parts p q r [v]) by lia. rewrite nth_error_app2 by lia. rewrite LP, Nat.sub_diag. reflexivity.
    + destruct (Nat.lt_ge_cases i k) as [L1|L1]; [apply splice_after; lia|]. rewrite <- (splice_before (children (l_node L)) k (S k) [v] i) by lia. f_equal. cbn [List.length]. lia.
  - split; [reflexivity|]. split; [reflexivity|]. split; [reflexivity|]. split; [|split; [|split]].
    + intros t ->. cbn [deep option_map]. destruct ((l_depth L <? List.length t) && (Z.of_nat k =? l_start L)%Z); reflexivity.
    + intros t ->. cbn [deep option_map]. destruct ((l_depth L <? List.length t) && (Z.of_nat k =? l_end L)%Z); reflexivity.
    + intros ->. reflexivity.
    + intros ->. reflexivity.
Qed.
Print Assumptions C47_item.

Definition row : tree := T 0 [T 1 []; T 2 []; T 3 []; T 4 []; T 5 []].
Definition nodes_of (L : level) : list nat := map tid (children (l_node L)).
Definition to_come (L : level) : res (list nat) := let! (ys, _) := exhaust 20 false (Range None None L []) in Ok ys.

Example C47_witness : exists L, new_level row (Some [1]) (Some [3]) 0 = Ok L /\ good (set_index L 2) (Some [1]) (Some [3]) /\
  clear_of (l_start L) 0 1 /\ clear_of (l_end L) 0 1 /\ clear_of 2 0 1 /\ to_come (set_index L 2) = Ok [4] /\
  to_come (set_level_slice (set_index L 2) (Some 0) (Some 1) [T 8 []; T 9 []])%Z = Ok [4] /\ to_come (set_level_slice (set_index L 2) (Some 3) (Some 3) [T 8 []; T 9 []])%Z = Ok [8; 9; 4].
Proof.
  eexists. split; [reflexivity|]. split; [|repeat split; try reflexivity; unfold clear_of; cbn; lia].
  split; try reflexivity; try (cbn; lia); [split; [reflexivity|cbn; lia]|there|there].
Qed.

(** Findings.  After the current node is deleted or replaced by a slice, the node after it is skipped. *)
Theorem C47_current_finding : exists L, new_level row None None 0 = Ok L /\ to_come (set_index L 1) = Ok [3; 4; 5] /\
  nodes_of (del_level_item (set_index L 1) 1) = [1; 3; 4; 5] /\ to_come (del_level_item (set_index L 1) 1) = Ok [4; 5].
Proof. eexists. split; [reflexivity|]. repeat split. Qed.
Print Assumptions C47_current_finding.

(** When the child on the end boundary is deleted, the child after it comes into the range; when there is none
    (and also without an end boundary) the end lies after the last child and iterating raises IndexError. *)
Theorem C47_end_finding :
  (exists L, new_level row None (Some [2]) 0 = Ok L /\ to_come L = Ok [1; 2; 3] /\ to_come (del_level_item L 2) = Ok [1; 2; 4] /\ l_end_trail (del_level_item L 2) = Some [2]) /\
  (exists L, new_level row None None 0 = Ok L /\ nodes_of (del_level_item L 4) = [1; 2; 3; 4] /\ to_come (del_level_item L 4) = Err IndexError).
Proof. split; eexists; (split; [reflexivity|]); repeat split. Qed.
Print Assumptions C47_end_finding.

(** Inserting before the first child of a level without a start boundary gives it a start, so
    that the new nodes are left out; del range[-1] deletes nothing, but changes the boundary. *)
Theorem C47_start_finding : exists L, new_level row None None 0 = Ok L /\
  nodes_of (set_level_slice L (Some 0) (Some 0) [T 9 []])%Z = [9; 1; 2; 3; 4; 5] /\ to_come (set_level_slice L (Some 0) (Some 0) [T 9 []])%Z = Ok [1; 2; 3; 4; 5] /\
  nodes_of (del_level_item L (-1)) = [1; 2; 3; 4; 5] /\ to_come (del_level_item L (-1)) = Err IndexError.
Proof. eexists. split; [reflexivity|]. repeat split. Qed.
Print Assumptions C47_start_finding.

(** A boundary or current child that is in the replaced slice moves to the child after the slice. *)
Theorem C47_replaced_finding : forall L a b v, a <= b <= List.length (children (l_node L)) ->
  let L' := set_level_slice L (Some (Z.of_nat a)) (Some (Z.of_nat b)) v in
  let n' := List.length (children (l_node L')) in
  0 < n' ->
  let moved (k k' : Z) := (Z.of_nat a <= k < Z.of_nat b)%Z -> k' = Z.of_nat (a + List.length v) /\ nth_error (children (l_node L')) (a + List.length v) = nth_error (children (l_node L)) b in
  moved (l_start L) (l_start L') /\ moved (l_end L) (l_end L') /\ moved (l_index L) (l_index L') /\
  (forall t, (Z.of_nat a <= l_start L < Z.of_nat b)%Z -> l_start_trail L = Some t -> l_depth L < List.length t ->
    l_start_trail L' = Some (firstn (l_depth L) t ++ if (0 <? a + List.length v) && (a + List.length v <? n') then [a + List.length v] else [])) /\
  (forall t, (Z.of_nat a <= l_end L < Z.of_nat b)%Z -> l_end_trail L = Some t -> l_depth L < List.length t ->
    l_end_trail L' = Some (firstn (l_depth L) t ++ if a + List.length v <? n' then [a + List.length v] else [])).
Proof.
  intros L a b v H L' n' N moved.
  assert (SB : slice_bounds (children (l_node L)) (Some (Z.of_nat a)) (Some (Z.of_nat b)) = (a, b)).
  { unfold slice_bounds, clamp. repeat match goal with |- context [(?x <? ?y)%Z] => destruct (x <? y)%Z eqn:?; try lia end. f_equal; lia. }
  assert (CL : forall x, x <= List.length (children (l_node L)) -> clamp (Z.of_nat (List.length (children (l_node L)))) (Z.of_nat x) = Z.of_nat x).
  { intros x X. unfold clamp. repeat match goal with |- context [(?x <? ?y)%Z] => destruct (x <? y)%Z eqn:?; try lia end. }
  assert (CH : children (l_node L') = splice (children (l_node L)) a b v).
  { unfold L', set_level_slice. rewrite SB. destruct (l_node L) as [i ts]. cbn [set_children children].
    repeat match goal with |- context [if ?c then _ else _] => destruct c end; reflexivity. }
  assert (LN : n' = List.length (children (l_node L)) + List.length v - (b - a)).
  { unfold n'. rewrite CH. unfold splice. rewrite !app_length, firstn_length, skipn_length. lia. }
  assert (NB : nth_error (children (l_node L')) (a + List.length v) = nth_error (children (l_node L)) b).
  { rewrite CH. rewrite <- (splice_before (children (l_node L)) a b v b) by lia. f_equal. lia. }
  unfold moved. clearbody n'. cbv beta. rewrite NB. unfold L', set_level_slice. rewrite SB, !CL by lia.
  replace ((Z.of_nat (List.length (children (l_node L))) + Z.of_nat (List.length v) - (Z.of_nat b - Z.of_nat a) =? 0)%Z) with false by lia.
  repeat split.
  - destruct (Z.of_nat a <=? l_start L)%Z eqn:A1; [|lia]. destruct (l_start L <? Z.of_nat a + (Z.of_nat b - Z.of_nat a))%Z eqn:A2; [|lia]. repeat match goal with |- context [if ?c then _ else _] => destruct c end; cbn [l_start]; lia.
  - destruct (Z.of_nat a <=? l_end L)%Z eqn:A1; [|lia]. destruct (l_end L <? Z.of_nat a + (Z.of_nat b - Z.of_nat a))%Z eqn:A2; [|lia]. repeat match goal with |- context [if ?c then _ else _] => destruct c end; cbn [l_end]; lia.
  - destruct (Z.of_nat a <=? l_index L)%Z eqn:A1; [|lia]. destruct (l_index L <? Z.of_nat a + (Z.of_nat b - Z.of_nat a))%Z eqn:A2; [|lia]. repeat match goal with |- context [if ?c then _ else _] => destruct c end; cbn [l_index]; lia.
  - intros t R ET D. destruct (Z.of_nat a <=? l_start L)%Z eqn:A1; [|lia]. destruct (l_start L <? Z.of_nat a + (Z.of_nat b - Z.of_nat a))%Z eqn:A2; [|lia]. rewrite ET. replace (deep (Some t) (l_depth L)) with true by (unfold deep; lia).
    cbv beta iota zeta. match goal with |- context [let (_, _) := ?x in _] => destruct x end. cbn [l_start_trail option_map]. unfold cut_trail.
    replace ((0 <? Z.of_nat a + Z.of_nat (List.length v))%Z && (Z.of_nat a + Z.of_nat (List.length v) <? Z.of_nat (List.length (children (l_node L))) + Z.of_nat (List.length v) - (Z.of_nat b - Z.of_nat a))%Z) with ((0 <? a + List.length v) && (a + List.length v <? n')) by lia.
    replace (Z.to_nat (Z.of_nat a + Z.of_nat (List.length v))) with (a + List.length v) by lia. reflexivity.
  - intros t R ET D. match goal with |- context [let (_, _) := ?x in let (_, _) := _ in _] => destruct x end. destruct (Z.of_nat a <=? l_end L)%Z eqn:A1; [|lia]. destruct (l_end L <? Z.of_nat a + (Z.of_nat b - Z.of_nat a))%Z eqn:A2; [|lia]. rewrite ET. replace (deep (Some t) (l_depth L)) with true by (unfold deep; lia).
    cbn [l_end_trail option_map]. unfold cut_trail.
    replace (Z.of_nat a + Z.of_nat (List.length v) <? Z.of_nat (List.length (children (l_node L))) + Z.of_nat (List.length v) - (Z.of_nat b - Z.of_nat a))%Z with (a + List.length v <? n') by lia.
    replace (Z.to_nat (Z.of_nat a + Z.of_nat (List.length v))) with (a + List.length v) by lia. reflexivity.
Qed.
Print Assumptions C47_replaced_finding.
(** When all children are removed, nothing is left; the trails end at the level, the start trail at its (missing) first child. *)
Theorem C47_emptied : forall L a b v, a <= b <= List.length (children (l_node L)) ->
  let L' := set_level_slice L (Some (Z.of_nat a)) (Some (Z.of_nat b)) v in
  children (l_node L') = [] ->
  (forall st et fuel, exists r, exhaust (S fuel) false (Range st et L' []) = Ok ([], r)) /\
  (forall x t, l_start_trail L = Some (x :: t) -> l_start_trail L' = Some (firstn (l_depth L) (x :: t) ++ [0])) /\
  (forall x t, l_end_trail L = Some (x :: t) -> l_end_trail L' = Some (firstn (l_depth L) (x :: t))) /\
  (l_start_trail L = None -> l_start_trail L' = None) /\ (l_end_trail L = None -> l_end_trail L' = None).
Proof.
  intros L a b v H L' E.
  assert (SB : slice_bounds (children (l_node L)) (Some (Z.of_nat a)) (Some (Z.of_nat b)) = (a, b)).
  { unfold slice_bounds, clamp. repeat match goal with |- context [(?x <? ?y)%Z] => destruct (x <? y)%Z eqn:?; try lia end. f_equal; lia. }
  assert (CL : forall x, x <= List.length (children (l_node L)) -> clamp (Z.of_nat (List.length (children (l_node L)))) (Z.of_nat x) = Z.of_nat x).
  { intros x X. unfold clamp. repeat match goal with |- context [(?x <? ?y)%Z] => destruct (x <? y)%Z eqn:?; try lia end. }
  assert (CH : children (l_node L') = splice (children (l_node L)) a b v).
  { unfold L', set_level_slice. rewrite SB. destruct (l_node L) as [i ts]. cbn [set_children children].
    repeat match goal with |- context [if ?c then _ else _] => destruct c end; reflexivity. }
  assert (LN : List.length (children (l_node L)) + List.length v - (b - a) = 0).
  { rewrite E in CH. apply (f_equal (@List.length tree)) in CH. unfold splice in CH. rewrite !app_length, firstn_length, skipn_length in CH. cbn in CH. lia. }
  assert (EL : L' = Level (set_children (l_node L) (splice (children (l_node L)) a b v)) (l_depth L)
     (match truthy (l_start_trail L) with Some t => Some (cut_trail t (l_depth L) [0]) | None => l_start_trail L end)
     (match truthy (l_end_trail L) with Some t => Some (cut_trail t (l_depth L) []) | None => l_end_trail L end) 0 (-1) (-1)).
  { unfold L', set_level_slice. rewrite SB, !CL by lia. replace ((Z.of_nat (List.length (children (l_node L))) + Z.of_nat (List.length v) - (Z.of_nat b - Z.of_nat a) =? 0)%Z) with true by lia. reflexivity. }
  clearbody L'. subst L'. split; [|split; [|split; [|split]]].
  - intros st et fuel. cbn [l_node] in E. unfold exhaust; cbn. eexists. reflexivity.
  - intros x t ->. reflexivity.
  - intros x t ->. cbn [truthy l_end_trail]. unfold cut_trail. rewrite app_nil_r. reflexivity.
  - intros ->. reflexivity.
  - intros ->. reflexivity.
Qed.
Print Assumptions C47_emptied.
Example C47_emptied_witness : exists L, new_level row (Some [1]) (Some [3]) 0 = Ok L /\
  let L' := set_level_slice L (Some 0%Z) (Some 5%Z) [] in children (l_node L') = [] /\ l_start_trail L' = Some [0] /\ l_end_trail L' = Some [] /\
  let L'' := set_level_slice L (Some 2%Z) (Some 4%Z) [T 8 []; T 9 []; T 10 []] in nodes_of L'' = [1; 2; 8; 9; 10; 5] /\ l_end L'' = 5%Z /\ l_end_trail L'' = Some [5].
Proof. eexists. split; [reflexivity|]. repeat split. Qed.
