From Coq Require Import List Arith Bool Lia.
From Verif Require Import Base Build_Model Build_Spec.
Import ListNotations.

(** * add *)
Section AddP.
Context {N : Type}.
Implicit Types (order skip : list (N -> bool)).

Lemma rank_app_lt : forall skip order k, existsb (fun c => c k) skip = true -> rank (skip ++ order) k < length skip.
Proof.
  induction skip as [|c skip IH]; intros order k E; [discriminate|].
  cbn in *. destruct (c k); [lia|]. cbn in E. specialize (IH order k E). lia.
Qed.
Lemma rank_app_ge : forall skip order k, existsb (fun c => c k) skip = false -> rank (skip ++ order) k = length skip + rank order k.
Proof.
  induction skip as [|c skip IH]; intros order k E; [reflexivity|].
  cbn in *. destruct (c k); [discriminate|]. cbn in E. rewrite (IH order k E). reflexivity.
Qed.

Lemma in_child_order_cons : forall order a l, in_child_order order (a :: l) <->
  (forall b, In b l -> rank order a <= rank order b) /\ in_child_order order l.
Proof.
  intros order a l. split.
  - intros H. split.
    + intros b I. apply in_split in I. destruct I as (l2 & l3 & ->). exact (H [] a l2 b l3 eq_refl).
    + intros l1 x l2 b l3 E. apply (H (a :: l1) x l2 b l3). rewrite E. reflexivity.
  - intros [H1 H2] l1 x l2 b l3 E. destruct l1 as [|y l1]; cbn in E; injection E; intros E2 E1; subst.
    + apply H1. apply in_or_app. right; left; reflexivity.
    + exact (H2 l1 x l2 b l3 eq_refl).
Qed.

Lemma in_child_order_nil : forall order, in_child_order order (@nil N).
Proof. intros order l1 a l2 b l3 E. destruct l1; discriminate. Qed.

Lemma insert_spec : forall skip node kids l, insert_after_skip N skip node kids = Some l ->
  exists l1 k l2, kids = l1 ++ k :: l2 /\ l = l1 ++ node :: k :: l2 /\
    (forall x, In x l1 -> existsb (fun c => c x) skip = true) /\ existsb (fun c => c k) skip = false.
Proof.
  intros skip node kids. induction kids as [|k r IH]; intros l H; [discriminate|]. cbn in H.
  destruct (existsb (fun c => c k) skip) eqn:X.
  - destruct (insert_after_skip N skip node r) as [l'|] eqn:Y; [|discriminate]. injection H as <-.
    destruct (IH l' eq_refl) as (l1 & k' & l2 & -> & -> & A & B).
    exists (k :: l1), k', l2. split; [reflexivity|]. split; [reflexivity|]. split; [|exact B]. intros x [<-|I]; auto.
  - injection H as <-. exists [], k, r. split; [reflexivity|]. split; [reflexivity|]. split; [|exact X]. intros x [].
Qed.

Lemma insert_none : forall skip node kids, insert_after_skip N skip node kids = None ->
  forall x, In x kids -> existsb (fun c => c x) skip = true.
Proof.
  intros skip node kids. induction kids as [|k r IH]; intros H x I; [destruct I|]. cbn in H.
  destruct (existsb (fun c => c k) skip) eqn:X; [|discriminate].
  destruct (insert_after_skip N skip node r) eqn:Y; [discriminate|].
  destruct I as [<-|I]; auto.
Qed.

Lemma order_insert : forall order node l1 l2, in_child_order order (l1 ++ l2) ->
  (forall x, In x l1 -> rank order x <= rank order node) -> (forall x, In x l2 -> rank order node <= rank order x) ->
  in_child_order order (l1 ++ node :: l2).
Proof.
  intros order node l1 l2. induction l1 as [|a l1 IH]; intros O A B; cbn [app] in *.
  - apply in_child_order_cons. split; assumption.
  - apply in_child_order_cons in O. destruct O as [O1 O2]. apply in_child_order_cons. split.
    + intros b I. apply in_app_iff in I. destruct I as [I|[<-|I]].
      * apply O1, in_or_app; auto.
      * apply A. left; reflexivity.
      * apply O1, in_or_app; auto.
    + apply IH; auto. intros x I. apply A. right; exact I.
Qed.

Lemma in_order_suffix : forall order l1 l2, in_child_order order (l1 ++ l2) -> in_child_order order l2.
Proof.
  induction l1 as [|a l1 IH]; intros l2 O; [exact O|]. apply in_child_order_cons in O. apply IH. tauto.
Qed.

Lemma add_order_spec : forall order skip node kids l,
  add_order N node skip order kids = Some l ->
  existsb (fun c => c node) skip = false \/ (forall x, In x kids -> existsb (fun c => c x) skip = true) ->
  inserted node kids l /\ (in_child_order (skip ++ order) kids -> in_child_order (skip ++ order) l).
Proof.
  induction order as [|cls order IH]; intros skip node kids l H P; [discriminate|]. cbn [add_order] in H.
  assert (E : skip ++ cls :: order = (skip ++ [cls]) ++ order) by (rewrite <- app_assoc; reflexivity).
  assert (X : forall x, existsb (fun c : N -> bool => c x) (skip ++ [cls]) = existsb (fun c => c x) skip || cls x).
  { intros x. rewrite existsb_app. cbn. rewrite orb_false_r. reflexivity. }
  destruct (cls node) eqn:C.
  - destruct (insert_after_skip N skip node kids) as [l'|] eqn:I.
    + injection H as ->. destruct (insert_spec _ _ _ _ I) as (l1 & k & l2 & -> & -> & A & B).
      split; [exists l1, (k :: l2); auto|]. intros O.
      destruct P as [P|P].
      2: { assert (Ik : In k (l1 ++ k :: l2)) by (apply in_or_app; right; left; reflexivity). specialize (P k Ik). congruence. }
      assert (R : rank (skip ++ cls :: order) node = length skip).
      { rewrite rank_app_ge by exact P. cbn. rewrite C. lia. }
      apply order_insert; [exact O| |].
      * intros x J. rewrite R. apply Nat.lt_le_incl, rank_app_lt. auto.
      * intros x J. rewrite R.
        assert (K : rank (skip ++ cls :: order) k <= rank (skip ++ cls :: order) x).
        { destruct J as [->|J]; [lia|]. apply in_order_suffix in O. apply in_child_order_cons in O. apply O. exact J. }
        rewrite (rank_app_ge skip (cls :: order) k B) in K. lia.
    + rewrite E. apply IH; [exact H|]. right. intros x J. rewrite X, (insert_none _ _ _ I x J). reflexivity.
  - rewrite E. apply IH; [exact H|]. destruct P as [P|P].
    + left. rewrite X, P, C. reflexivity.
    + right. intros x J. rewrite X, (P x J). reflexivity.
Qed.

(** If no place is found, all children come at or before the node's place. *)
Lemma add_order_none : forall order skip node kids,
  add_order N node skip order kids = None -> existsb (fun c => c node) skip = false ->
  forall x, In x kids -> rank (skip ++ order) x <= rank (skip ++ order) node.
Proof.
  induction order as [|cls order IH]; intros skip node kids H P x I.
  - rewrite (rank_app_ge skip [] node P).
    destruct (existsb (fun c => c x) skip) eqn:X.
    + pose proof (rank_app_lt skip [] x X). cbn. lia.
    + rewrite (rank_app_ge skip [] x X). cbn. lia.
  - cbn [add_order] in H. assert (E : skip ++ cls :: order = (skip ++ [cls]) ++ order) by (rewrite <- app_assoc; reflexivity).
    destruct (cls node) eqn:C.
    + destruct (insert_after_skip N skip node kids) as [l'|] eqn:Q; [discriminate|].
      rewrite (rank_app_ge skip (cls :: order) node P). pose proof (rank_app_lt skip (cls :: order) x (insert_none _ _ _ Q x I)). lia.
    + rewrite E. apply (IH (skip ++ [cls]) node kids); auto. rewrite existsb_app, P. cbn. rewrite C. reflexivity.
Qed.

Lemma add_inserted : forall orders node kids, inserted node kids (add N node orders kids).
Proof.
  induction orders as [|o orders IH]; intros node kids; cbn [add].
  - exists kids, []. rewrite app_nil_r. auto.
  - destruct (add_order N node [] o kids) as [l|] eqn:A; [|apply IH].
    apply (proj1 (add_order_spec o [] node kids l A (or_introl eq_refl))).
Qed.

Lemma add_one_order : forall order node kids, in_child_order order kids -> in_child_order order (add N node [order] kids).
Proof.
  intros order node kids O. cbn [add]. destruct (add_order N node [] order kids) as [l|] eqn:A.
  - apply (proj2 (add_order_spec order [] node kids l A (or_introl eq_refl))). exact O.
  - apply order_insert; [rewrite app_nil_r; exact O| |intros x []].
    apply (add_order_none order [] node kids A eq_refl).
Qed.
End AddP.

(** * build_tree *)
Fixpoint dt_ind2 (P : dt -> Prop) (H : forall t l, Forall P l -> P (D t l)) (d : dt) : P d :=
  match d with
  | D t l => H t l ((fix go l : Forall P l := match l with [] => Forall_nil _ | x :: r => Forall_cons _ (dt_ind2 P H x) (go r) end) l)
  end.

Section BuildP.
Variable sigs : nat -> option (list signature).
Variable ignore : nat -> bool.
Hypothesis sens : sensible sigs.

Notation args := (arguments ignore).

Inductive rem : list nat -> signature -> signature -> Prop :=
| rem_nil s : rem [] s s
| rem_cons y c ys s s' : c y = true -> rem ys s s' -> rem (y :: ys) (c :: s) s'.

Lemma rem_fits : forall ys s, fits ys s <-> exists s', rem ys s s'.
Proof.
  split.
  - intros F. induction F as [s|y c ys s C F (s' & IH)]; [exists s; constructor|exists s'; constructor; assumption].
  - intros (s' & R). induction R; constructor; assumption.
Qed.
Lemma rem_length : forall ys s s', rem ys s s' -> length s = length ys + length s'.
Proof. intros ys s s' R. induction R; cbn; lia. Qed.
Lemma rem_snoc : forall ys y s s', rem (ys ++ [y]) s s' <-> exists c, rem ys s (c :: s') /\ c y = true.
Proof.
  induction ys as [|z ys IH]; intros y s s'; cbn [app].
  - split.
    + intros R. inversion R as [|? c ? s1 ? C R']; subst. inversion R'; subst. exists c. split; [constructor|exact C].
    + intros (c & R & C). inversion R; subst. constructor; [exact C|constructor].
  - split.
    + intros R. inversion R as [|? c ? s1 ? C R']; subst. apply IH in R'. destruct R' as (c' & R' & C').
      exists c'. split; [constructor; assumption|exact C'].
    + intros (c & R & C). inversion R as [|? c' ? s1 ? C1 R']; subst. constructor; [exact C1|]. apply IH. eauto.
Qed.

Lemma accepts_rem : forall u x, accepts sigs ignore u x <->
  exists ss, sigs (b_ty u) = Some ss /\ ((ss = [] /\ args (b_kids u) = [] /\ ignore (b_ty x) = true) \/
    exists s s', In s ss /\ rem (args (b_kids u)) s s' /\ s' <> [] /\
    (ignore (b_ty x) = true \/ exists c r, s' = c :: r /\ c (b_ty x) = true)).
Proof.
  intros u x. unfold accepts. split; intros (ss & A & [Z|H]); exists ss; (split; [exact A|]); [left; exact Z|right|left; exact Z|right]; revert H.
  - intros (s & B & C & F). exists s. destruct (ignore (b_ty x)) eqn:G.
    + rewrite app_nil_r in F. apply rem_fits in F. destruct F as (s' & R). exists s'. repeat split; auto.
      intros ->. apply rem_length in R. cbn in R. lia.
    + apply rem_fits in F. destruct F as (s' & R). apply rem_snoc in R. destruct R as (c & R & Cc).
      exists (c :: s'). repeat split; auto; [discriminate|]. right. eauto.
  - intros (s & s' & B & R & NE & C). exists s. repeat split; auto.
    + apply rem_length in R. destruct s'; [congruence|cbn in R; lia].
    + apply rem_fits. destruct (ignore (b_ty x)) eqn:G.
      * rewrite app_nil_r. eauto.
      * destruct C as [C|(c & r & -> & C)]; [congruence|]. exists r. apply rem_snoc. eauto.
Qed.

(** The waiting signatures of a node. *)
Definition waiting (u : bt) (ss : list signature) : Prop :=
  (forall s', In s' ss -> s' <> []) /\
  (forall s', s' <> [] -> (In s' ss <-> exists ss0 s, sigs (b_ty u) = Some ss0 /\ In s ss0 /\ rem (args (b_kids u)) s s')) /\
  (ss = [] -> sigs (b_ty u) = Some [] /\ args (b_kids u) = []).

Lemma waiting_accepts : forall u ss x, waiting u ss ->
  (accepts sigs ignore u x <-> ignore (b_ty x) = true \/ exists c r, In (c :: r) ss /\ c (b_ty x) = true).
Proof.
  intros u ss x (W1 & W2 & W3). rewrite accepts_rem. split.
  - intros (ss0 & A & [(_ & _ & B)|(s & s' & B & R & NE & [C|(c & r & -> & C)])]); [left; exact B|left; exact C|right].
    exists c, r. split; [apply W2; eauto|exact C].
  - intros C. assert (D : ss = [] \/ exists s', In s' ss /\ (ignore (b_ty x) = true \/ exists c r, s' = c :: r /\ c (b_ty x) = true)).
    { destruct C as [C|(c & r & I & C)]; [|right; exists (c :: r); split; [exact I|right; eauto]]. destruct ss as [|s0 ss]; [left; reflexivity|right]. exists s0. split; [left; reflexivity|left; exact C]. }
    destruct D as [-> |(s' & I & D)].
    + destruct (W3 eq_refl) as [S A]. exists []. split; [exact S|]. left. destruct C as [C|(c & r & [] & _)]. auto.
    + destruct (proj1 (W2 s' (W1 s' I)) I) as (ss0 & s & A & B & R). exists ss0. split; [exact A|]. right. exists s, s'. repeat split; auto.
Qed.

Lemma advance_spec : forall y ss, (forall s, In s ss -> s <> []) ->
  exists l, advance y ss = Ok l /\ forall s', In s' l <-> exists c, In (c :: s') ss /\ c y = true.
Proof.
  induction ss as [|s ss IH]; intros N; [exists []; split; [reflexivity|]; intros s'; split; [intros []|intros (c & [] & _)]|].
  destruct IH as (l & A & B); [intros s0 I; apply N; right; exact I|].
  destruct s as [|c s]; [exfalso; apply (N []); [left|]; reflexivity|].
  cbn [advance]. rewrite A. cbn [bindr]. eexists. split; [reflexivity|]. intros s'.
  destruct (c y) eqn:C.
  - cbn [In]. rewrite B. split.
    + intros [<-|(c' & I & C')]; [exists c; auto|exists c'; auto].
    + intros (c' & [E|I] & C'); [injection E; auto|right; eauto].
  - rewrite B. split.
    + intros (c' & I & C'); exists c'; split; [right; exact I|exact C'].
    + intros (c' & [E|I] & C'); [injection E; intros; subst; congruence|eauto].
Qed.

Lemma advance_existing_spec : forall y ss, (forall s, In s ss -> s <> []) ->
  exists l, advance_existing y ss = Ok l /\ forall s', In s' l <-> s' <> [] /\ exists c, In (c :: s') ss /\ c y = true.
Proof.
  induction ss as [|s ss IH]; intros N; [exists []; split; [reflexivity|]; intros s'; split; [intros []|intros (_ & c & [] & _)]|].
  destruct IH as (l & A & B); [intros s0 I; apply N; right; exact I|].
  destruct s as [|c s]; [exfalso; apply (N []); [left|]; reflexivity|].
  cbn [advance_existing]. rewrite A. cbn [bindr]. eexists. split; [reflexivity|]. intros s'.
  destruct (c y) eqn:C; cbn [andb].
  - destruct s as [|c2 s]; cbn [length Nat.eqb negb].
    + rewrite B. split.
      * intros (NE & c' & I & C'). split; [exact NE|]. exists c'; split; [right; exact I|exact C'].
      * intros (NE & c' & [E|I] & C'); [injection E; intros; congruence|eauto].
    + cbn [In]. rewrite B. split.
      * intros [<-|(NE & c' & I & C')]; [split; [discriminate|exists c; auto]|split; [exact NE|exists c'; auto]].
      * intros (NE & c' & [E|I] & C'); [injection E; auto|right; eauto].
  - rewrite B. split.
    + intros (NE & c' & I & C'); split; [exact NE|]. exists c'; split; [right; exact I|exact C'].
    + intros (NE & c' & [E|I] & C'); [injection E; intros; subst; congruence|eauto].
Qed.

Lemma args_app : forall a b, args (a ++ b) = args a ++ args b.
Proof. intros. unfold arguments. rewrite map_app, filter_app. reflexivity. Qed.
Lemma args_one : forall x, args [x] = if ignore (b_ty x) then [] else [b_ty x].
Proof. intros. unfold arguments. cbn. destruct (ignore (b_ty x)); reflexivity. Qed.

(** ** Derivations *)
Fixpoint last_rejects (l : list dt) (x : bt) : Prop :=
  match l with [] => True | d' :: r => match r with [] => rejects sigs ignore d' x | _ => last_rejects r x end end.
Fixpoint all_valid (l : list dt) : Prop := match l with [] => True | d' :: r => valid sigs ignore d' /\ all_valid r end.

Lemma rejects_eq : forall t added x, rejects sigs ignore (D t added) x <->
  ~ accepts sigs ignore (tree_of (D t added)) x /\ last_rejects added x.
Proof.
  intros t added x. cbn [rejects tree_of].
  assert (G : (fix lst l : Prop := match l with [] => True | d' :: r => match r with [] => rejects sigs ignore d' x | _ => lst r end end) added <-> last_rejects added x).
  { induction added as [|d r IH]; [reflexivity|]. destruct r; [reflexivity|exact IH]. }
  rewrite G. reflexivity.
Qed.

Lemma valid_eq : forall t added, valid sigs ignore (D t added) <->
  well_added sigs ignore t (map tree_of added) /\ greedy sigs ignore added /\ all_valid added.
Proof.
  intros t added. cbn [valid].
  assert (G : (fix all l : Prop := match l with [] => True | d' :: r => valid sigs ignore d' /\ all r end) added <-> all_valid added).
  { induction added as [|d r IH]; [reflexivity|]. cbn [all_valid]. rewrite IH. reflexivity. }
  rewrite G. reflexivity.
Qed.

Lemma last_rejects_snoc : forall l d x, last_rejects (l ++ [d]) x <-> rejects sigs ignore d x.
Proof.
  induction l as [|a l IH]; intros d x; [reflexivity|]. cbn [app last_rejects].
  destruct (l ++ [d]) eqn:E; [destruct l; discriminate|]. rewrite <- E. apply IH.
Qed.
Lemma greedy_snoc : forall l d, greedy sigs ignore (l ++ [d]) <-> greedy sigs ignore l /\ last_rejects l (tree_of d).
Proof.
  induction l as [|a l IH]; intros d; [cbn; tauto|]. cbn [app greedy last_rejects].
  destruct l as [|b l]; [cbn; tauto|]. cbn [app] in *. rewrite (IH d). tauto.
Qed.
Lemma greedy_app : forall a b, greedy sigs ignore a -> greedy sigs ignore b ->
  (forall d', hd_error b = Some d' -> last_rejects a (tree_of d')) -> greedy sigs ignore (a ++ b).
Proof.
  intros a b A B H. destruct b as [|d b]; [rewrite app_nil_r; exact A|].
  specialize (H d eq_refl). revert A H. induction a as [|x a IH]; intros A H; [exact B|].
  destruct A as [A1 A2]. cbn [app greedy]. destruct a as [|y a].
  - cbn [app]. split; [exact H|exact B].
  - cbn [app]. split; [exact A1|]. apply IH; assumption.
Qed.
Lemma all_valid_app : forall a b, all_valid (a ++ b) <-> all_valid a /\ all_valid b.
Proof. induction a as [|x a IH]; intros b; cbn; [tauto|]. rewrite IH. tauto. Qed.

Definition sealed (d : dt) : Prop := forall x, rejects sigs ignore d x.

Definition add_d (d x : dt) : dt := D (d_node d) (d_added d ++ [x]).

Lemma tree_of_add : forall d x, tree_of (add_d d x) = add_argument (tree_of d) (tree_of x).
Proof. intros [t l] x. cbn. rewrite map_app, app_assoc. reflexivity. Qed.
Lemma nodes_of_add : forall d x, nodes_of (add_d d x) = nodes_of d ++ nodes_of x.
Proof. intros [t l] x. cbn. rewrite flat_map_app. cbn. rewrite app_nil_r. reflexivity. Qed.

Lemma valid_add : forall d x, valid sigs ignore d -> valid sigs ignore x -> last_rejects (d_added d) (tree_of x) ->
  accepts sigs ignore (tree_of d) (tree_of x) ->
  valid sigs ignore (add_d d x).
Proof.
  intros [t l] x V Vx R C. unfold add_d. cbn [d_node d_added] in *. apply valid_eq in V. destruct V as (V1 & V2 & V3).
  apply valid_eq. split; [|split].
  - intros a y b E. rewrite map_app in E. cbn [map] in E. destruct b as [|z b].
    + apply app_inj_tail in E. destruct E as [<- <-]. exact C.
    + destruct (exists_last (l := z :: b) ltac:(discriminate)) as (b' & z' & Eb). rewrite Eb in E.
      replace (a ++ y :: b' ++ [z']) with ((a ++ y :: b') ++ [z']) in E by (rewrite <- app_assoc; reflexivity).
      apply app_inj_tail in E. destruct E as [E _]. apply (V1 a y b' E).
  - apply greedy_snoc. split; assumption.
  - apply all_valid_app. cbn. auto.
Qed.

Definition seg (ds : list dt) : list bt := flat_map nodes_of ds.

(** The trees that are really made. *)
Variable add_arg : bt -> bt -> bt.
Variable f : dt -> bt.
Hypothesis f_leaf : forall t, f (D t []) = t.
Hypothesis f_add : forall d x, f (add_d d x) = add_arg (f d) (f x).
Hypothesis f_type : forall d, b_ty (f d) = b_ty (tree_of d).

(** An entry of the stack. *)
Definition entry_ok (e : entry) (d : dt) : Prop :=
  fst e = f d /\ valid sigs ignore d /\ waiting (tree_of d) (snd e) /\ (exists ss, sigs (b_ty (tree_of d)) = Some ss).

(** The head of the pending list, if any, is rejected by the last argument of the top;
    below the top and if nothing is pending the last argument rejects everything. *)
Definition ready (d : dt) (pending : list dt) : Prop :=
  match pending with [] => forall x, last_rejects (d_added d) x | p :: _ => last_rejects (d_added d) (tree_of p) end.

(** [fin] tells that nothing will follow, so that the last pending need not be sealed. *)
Lemma add_loop_spec : forall (fin : Prop) fuel stack pending ds ps,
  2 * length stack + length pending < fuel ->
  Forall2 entry_ok stack ds ->
  pending = map f ps -> all_valid ps -> greedy sigs ignore ps ->
  (fin \/ forall p, ps <> [] -> last_rejects ps p) ->
  (fin /\ ps = [] \/ match ds with [] => True | d :: _ => ready d ps end) ->
  Forall (fun d => forall x, last_rejects (d_added d) x) (tl ds) ->
  exists stack' ds' out, add_loop ignore add_arg fuel stack pending = Ok (stack', map f out) /\
    Forall2 entry_ok stack' ds' /\ length stack' <= length stack /\
    (stack' = [] \/ out = []) /\ all_valid out /\ greedy sigs ignore out /\
    seg (rev ds) ++ seg ps = seg out ++ seg (rev ds') /\
    (out <> [] -> fin \/ forall p, last_rejects out p) /\
    (fin \/ match ds' with [] => True | d :: _ => forall x, last_rejects (d_added d) x end) /\
    Forall (fun d => forall x, last_rejects (d_added d) x) (tl ds').
Proof.
  intros fin. induction fuel as [|fuel IH]; intros stack pending ds ps L F E V G SL RD BL; [lia|].
  cbn [add_loop].
  destruct F as [|[parent ss] d stack ds EO F].
  - exists [], [], ps. rewrite E. split; [reflexivity|]. cbn. rewrite app_nil_r. repeat split; auto.
    intros NE. destruct SL as [SL|SL]; [left; exact SL|right; intros p; apply SL; exact NE].
  - destruct pending as [|node pending'].
    + destruct ps as [|p ps]; [|discriminate]. exists ((parent, ss) :: stack), (d :: ds), [].
      split; [reflexivity|]. split; [constructor; assumption|]. split; [apply le_n|]. split; [auto|]. split; [exact Logic.I|]. split; [exact Logic.I|].
      split; [cbn; rewrite app_nil_r; reflexivity|]. split; [congruence|]. split; [|exact BL].
      destruct RD as [[RD _]|RD]; [left; exact RD|right; exact RD].
    + destruct ps as [|p ps]; [discriminate|]. cbn [map] in E. injection E as -> ->.
      destruct RD as [[_ RD]|RD]; [discriminate|]. cbn [ready] in RD.
      destruct EO as (E1 & E2 & E3 & (ss0 & E5)). cbn [fst snd] in *. subst parent.
      cbn [tl] in BL. cbn [length] in L. rewrite map_length in L.
      destruct V as [Vp V].
      assert (Gp : greedy sigs ignore ps) by (destruct G; assumption).
      assert (SL' : fin \/ forall q, ps <> [] -> last_rejects ps q).
      { destruct SL as [SL|SL]; [left; exact SL|right]. intros q NE. specialize (SL q ltac:(discriminate)).
        cbn [last_rejects] in SL. destruct ps; [congruence|exact SL]. }
      (* the node is added to the parent *)
      assert (ADD : forall ss', entry_ok (add_arg (f d) (f p), ss') (add_d d p) ->
        exists stack' ds' out, add_loop ignore add_arg fuel ((add_arg (f d) (f p), ss') :: stack) (map f ps) = Ok (stack', map f out) /\
          Forall2 entry_ok stack' ds' /\ length stack' <= length ((f d, ss) :: stack) /\
          (stack' = [] \/ out = []) /\ all_valid out /\ greedy sigs ignore out /\
          seg (rev (d :: ds)) ++ seg (p :: ps) = seg out ++ seg (rev ds') /\
          (out <> [] -> fin \/ forall p, last_rejects out p) /\
          (fin \/ match ds' with [] => True | d :: _ => forall x, last_rejects (d_added d) x end) /\
          Forall (fun d => forall x, last_rejects (d_added d) x) (tl ds')).
      { intros ss' EO. destruct (IH ((add_arg (f d) (f p), ss') :: stack) (map f ps) (add_d d p :: ds) ps)
          as (stack' & ds' & out & R1 & R2 & R3 & R4 & R5 & R6 & R7 & R8 & R9 & R10); auto.
        - cbn [length]. rewrite map_length. lia.
        - destruct ps as [|q ps].
          + destruct SL as [SL|SL]; [left; auto|right]. cbn [ready]. intros x. cbn [d_added add_d].
            apply last_rejects_snoc. apply (SL x). discriminate.
          + right. cbn [ready]. cbn [d_added add_d]. apply last_rejects_snoc. destruct G as [G _]. exact G.
        - exists stack', ds', out. repeat split; auto.
          rewrite <- R7. unfold seg. cbn [rev]. rewrite !flat_map_app. cbn [flat_map]. rewrite !app_nil_r, nodes_of_add, <- !app_assoc. reflexivity. }
      rewrite f_type. destruct (ignore (b_ty (tree_of p))) eqn:IG.
      * apply ADD. split; [symmetry; apply f_add|]. split; [apply valid_add; auto; apply (waiting_accepts _ _ _ E3); left; exact IG|].
        cbn [fst snd]. rewrite tree_of_add. split; [|exists ss0; exact E5]. unfold waiting. cbn [add_argument b_ty b_kids]. rewrite args_app, args_one, IG, app_nil_r. exact E3.
      * destruct (advance_spec (b_ty (tree_of p)) ss) as (l & A1 & A2); [apply E3|].
        rewrite A1. cbn [bindr].
        assert (FIT : forall s', In s' l -> exists s, In s ss0 /\ rem (args (b_kids (tree_of d) ++ [tree_of p])) s s').
        { intros s' I. apply A2 in I. destruct I as (c & I & C). destruct E3 as (W1 & W2 & _).
          destruct (proj1 (W2 (c :: s') (W1 _ I)) I) as (ss1 & s & S1 & S2 & S3). rewrite E5 in S1. injection S1 as <-.
          exists s. split; [exact S2|]. rewrite args_app, args_one, IG. apply rem_snoc. eauto. }
        assert (FIT' : forall s s', In s ss0 -> rem (args (b_kids (tree_of d) ++ [tree_of p])) s s' -> In s' l).
        { intros s s' I R. rewrite args_app, args_one, IG in R. apply rem_snoc in R. destruct R as (c & R & C).
          apply A2. exists c. split; [|exact C]. apply E3; [discriminate|]. exists ss0, s. auto. }
        destruct (nonempty l) eqn:NE.
        -- assert (VA : valid sigs ignore (add_d d p)).
           { apply valid_add; auto. apply (waiting_accepts _ _ _ E3). right. destruct l as [|s' l]; [discriminate|].
             destruct (proj1 (A2 s') (or_introl eq_refl)) as (c & I & C). eauto. }
           destruct (nonempty (filter nonempty l)) eqn:NF.
           ++ apply ADD. split; [symmetry; apply f_add|]. split; [exact VA|]. cbn [fst snd]. rewrite tree_of_add. split; [|exists ss0; exact E5].
              split; [|split].
              ** { intros s' I. apply filter_In in I. destruct I as [_ I]. destruct s'; [discriminate|discriminate]. }
              ** intros s' N. split.
                 { intros I. apply filter_In in I. destruct I as [I _]. destruct (FIT s' I) as (s & J & R). exists ss0, s. auto. }
                 intros (ss1 & s & S1 & S2 & S3). cbn [add_argument b_ty b_kids] in S1, S3. rewrite E5 in S1. injection S1 as <-.
                 apply filter_In. split; [eapply FIT'; eauto|destruct s'; [congruence|reflexivity]].
              ** intros Q. rewrite Q in NF. discriminate.
           ++ (* complete *)
              assert (NA : forall x, ~ accepts sigs ignore (tree_of (add_d d p)) x).
              { intros x AC. apply accepts_rem in AC. rewrite tree_of_add in AC. cbn [add_argument b_ty b_kids] in AC.
                destruct AC as (ss1 & S1 & [(_ & S3 & _)|(s & s' & S2 & S3 & S4 & _)]).
                { rewrite args_app, args_one, IG in S3. apply app_eq_nil in S3. destruct S3; discriminate. }
                rewrite E5 in S1. injection S1 as <-.
                assert (I : In s' (filter nonempty l)).
                { apply filter_In. split; [eapply FIT'; eauto|destruct s'; [congruence|reflexivity]]. }
                destruct (filter nonempty l); [destruct I|discriminate]. }
              destruct (IH stack (map f (add_d d p :: ps)) ds (add_d d p :: ps))
                as (stack' & ds' & out & R1 & R2 & R3 & R4 & R5 & R6 & R7 & R8 & R9 & R10); auto.
              ** cbn [length map]. rewrite map_length. lia.
              ** split; assumption.
              ** split; [|exact Gp]. destruct ps as [|q ps]; [exact Logic.I|].
                 unfold add_d. apply rejects_eq. split; [apply NA|]. apply last_rejects_snoc. destruct G as [G _]. exact G.
              ** destruct SL as [SL|SL]; [left; exact SL|right]. intros x _. cbn [last_rejects].
                 destruct ps as [|q ps]; [|apply (SL x); discriminate].
                 unfold add_d. apply rejects_eq. split; [apply NA|]. apply last_rejects_snoc. apply (SL x). discriminate.
              ** right. destruct ds as [|d2 ds]; [exact Logic.I|]. cbn [ready]. apply (Forall_inv BL).
              ** destruct ds; [exact BL|]. apply (Forall_inv_tail BL).
              ** exists stack', ds', out. split.
                 { rewrite <- R1. cbn [map]. rewrite f_add. reflexivity. }
                 split; [exact R2|]. split; [cbn [length]; lia|]. split; [exact R4|]. split; [exact R5|]. split; [exact R6|]. split; [|auto].
                 rewrite <- R7. unfold seg. cbn [rev]. rewrite !flat_map_app. cbn [flat_map]. rewrite ?app_nil_r, nodes_of_add, <- !app_assoc. reflexivity.
        -- (* does not fit *)
           assert (NA : ~ accepts sigs ignore (tree_of d) (tree_of p)).
           { intros AC. apply (waiting_accepts _ _ _ E3) in AC. destruct AC as [C|(c & r & I & C)]; [congruence|].
             assert (J : In r l) by (apply A2; eauto). destruct l; [destruct J|discriminate]. }
           destruct (IH stack (map f (d :: p :: ps)) ds (d :: p :: ps))
             as (stack' & ds' & out & R1 & R2 & R3 & R4 & R5 & R6 & R7 & R8 & R9 & R10); auto.
           ** cbn [length map]. rewrite map_length. lia.
           ** repeat split; assumption.
           ** split; [|exact G]. destruct d as [t a]. apply rejects_eq. split; [exact NA|exact RD].
           ** destruct SL as [SL|SL]; [left; exact SL|right]. intros x _. change (last_rejects (p :: ps) x). apply SL. discriminate.
           ** right. destruct ds as [|d2 ds]; [exact Logic.I|]. cbn [ready]. apply (Forall_inv BL).
           ** destruct ds; [exact BL|]. apply (Forall_inv_tail BL).
           ** exists stack', ds', out. split; [exact R1|].
              split; [exact R2|]. split; [cbn [length]; lia|]. split; [exact R4|]. split; [exact R5|]. split; [exact R6|]. split; [|auto].
              rewrite <- R7. unfold seg. cbn [rev]. rewrite !flat_map_app. cbn [flat_map]. rewrite ?app_nil_r, <- !app_assoc. reflexivity.
Qed.

Lemma existing_spec : forall kids ss pre y, sigs y <> None ->
  (forall s', In s' ss -> s' <> []) ->
  (forall s', s' <> [] -> (In s' ss <-> exists ss0 s, sigs y = Some ss0 /\ In s ss0 /\ rem (args pre) s s')) ->
  exists r, existing ignore kids ss = Ok r /\
    match r with
    | Some l => (forall s', In s' l -> s' <> []) /\
        forall s', s' <> [] -> (In s' l <-> exists ss0 s, sigs y = Some ss0 /\ In s ss0 /\ rem (args (pre ++ kids)) s s')
    | None => args kids <> [] /\ forall ss0 s s', sigs y = Some ss0 -> In s ss0 -> rem (args (pre ++ kids)) s s' -> s' = []
    end /\ (r = Some [] -> ss = [] /\ args kids = []).
Proof.
  induction kids as [|k kids IH]; intros ss pre y SY N W.
  - exists (Some ss). rewrite app_nil_r. split; [reflexivity|]. split; [auto|]. intros E. injection E as ->. auto.
  - cbn [existing]. replace (pre ++ k :: kids) with ((pre ++ [k]) ++ kids) by (rewrite <- app_assoc; reflexivity).
    destruct (ignore (b_ty k)) eqn:IG.
    + assert (AK : args (k :: kids) = args kids) by (change (k :: kids) with ([k] ++ kids); rewrite args_app, args_one, IG; reflexivity).
      rewrite AK. apply IH; auto. intros s' NE. rewrite args_app, args_one, IG, app_nil_r. apply W. exact NE.
    + destruct (advance_existing_spec (b_ty k) ss N) as (l & A1 & A2). rewrite A1. cbn [bindr].
      assert (AK : args (k :: kids) = b_ty k :: args kids) by (change (k :: kids) with ([k] ++ kids); rewrite args_app, args_one, IG; reflexivity).
      assert (W' : forall s', s' <> [] -> (In s' l <-> exists ss0 s, sigs y = Some ss0 /\ In s ss0 /\ rem (args (pre ++ [k])) s s')).
      { intros s' NE. rewrite A2, args_app, args_one, IG. split.
        - intros (_ & c & I & C). apply W in I; [|discriminate]. destruct I as (ss0 & s & S1 & S2 & S3). exists ss0, s. repeat split; auto. apply rem_snoc. eauto.
        - intros (ss0 & s & S1 & S2 & S3). apply rem_snoc in S3. destruct S3 as (c & S3 & C). split; [exact NE|]. exists c. split; [|exact C].
          apply W; [discriminate|]. exists ss0, s. auto. }
      assert (N' : forall s', In s' l -> s' <> []) by (intros s' I; apply A2 in I; tauto).
      destruct (nonempty l) eqn:NE.
      * destruct (IH l (pre ++ [k]) y SY N' W') as (r & R1 & R2 & R3). exists r. split; [exact R1|]. split.
        { destruct r; [exact R2|]. split; [rewrite AK; discriminate|apply R2]. }
        intros Er. destruct (R3 Er) as [-> _]. discriminate.
      * exists None. split; [reflexivity|]. split; [|discriminate]. split; [rewrite AK; discriminate|].
        intros ss0 s s' S1 S2 S3. rewrite args_app in S3.
        assert (Z : forall ys s s', rem (args (pre ++ [k]) ++ ys) s s' -> exists m, rem (args (pre ++ [k])) s m /\ rem ys m s').
        { generalize (args (pre ++ [k])). clear. induction l as [|y l IHl]; intros ys s s' R; cbn [app] in R.
          - exists s. split; [constructor|exact R].
          - inversion R as [|? c ? s1 ? C R']; subst. destruct (IHl _ _ _ R') as (m & M1 & M2). exists m. split; [constructor; assumption|exact M2]. }
        destruct (Z _ _ _ S3) as (m & M1 & M2). destruct m as [|c m].
        { inversion M2; reflexivity. }
        exfalso. assert (I : In (c :: m) l) by (apply W'; [discriminate|]; exists ss0, s; auto).
        destruct l; [destruct I|discriminate].
Qed.

(** A node is pushed if and only if it can still take arguments. *)
Lemma push_spec : forall node, exists r,
  (match sigs (b_ty node) with None => Ok None | Some ss => existing ignore (b_kids node) ss end) = Ok r /\
  match r with
  | Some ss => entry_ok (node, ss) (D node [])
  | None => sealed (D node [])
  end.
Proof.
  intros node.
  assert (T : tree_of (D node []) = node) by (destruct node; cbn; rewrite app_nil_r; reflexivity).
  destruct (sigs (b_ty node)) as [ss|] eqn:S.
  - pose proof (sens _ _ S) as S2.
    destruct (existing_spec (b_kids node) ss [] (b_ty node)) as (r & R1 & R2 & R3); auto.
    + congruence.
    + intros s' NE. split.
      * intros I. exists ss, s'. repeat split; auto. constructor.
      * intros (ss0 & s & A & B & R). rewrite S in A. injection A as <-. inversion R; subst. exact B.
    + exists r. split; [exact R1|]. destruct r as [l|].
      * split; [symmetry; apply f_leaf|]. cbn [fst snd]. rewrite T. split; [|split].
        -- apply valid_eq. split; [intros a x b E; destruct a; discriminate|]. split; exact Logic.I.
        -- destruct R2 as [R2 R4]. split; [exact R2|]. split; [exact R4|]. cbn [fst snd]. intros ->. destruct (R3 eq_refl) as [-> A]. auto.
        -- eauto.
      * intros x. apply rejects_eq. split; [|exact Logic.I]. rewrite T. intros AC. apply accepts_rem in AC.
        destruct R2 as [R2 R4]. destruct AC as (ss0 & A & [(_ & B & _)|(s & s' & B & R & NE & _)]); [exact (R2 B)|]. apply NE. eapply R4; eauto.
  - exists None. split; [reflexivity|]. intros x. apply rejects_eq. split; [|exact Logic.I]. rewrite T.
    intros (ss0 & A & _). congruence.
Qed.

Lemma main_spec : forall nodes stack ds,
  Forall2 entry_ok stack ds -> Forall (fun d => forall x, last_rejects (d_added d) x) ds ->
  exists stack' ds' out, main_loop sigs ignore add_arg nodes stack = Ok (stack', map f out) /\
    Forall2 entry_ok stack' ds' /\ Forall (fun d => forall x, last_rejects (d_added d) x) ds' /\
    all_valid out /\ greedy sigs ignore out /\
    seg (rev ds) ++ nodes = seg out ++ seg (rev ds') /\
    (out <> [] -> forall p, last_rejects out p).
Proof.
  induction nodes as [|node nodes IH]; intros stack ds F SE.
  - exists stack, ds, []. cbn. rewrite app_nil_r. repeat split; auto.
  - cbn [main_loop]. destruct (push_spec node) as (r & R1 & R2). rewrite R1. cbn [bindr].
    assert (T : tree_of (D node []) = node) by (destruct node; cbn; rewrite app_nil_r; reflexivity).
    destruct r as [ss|].
    + destruct (IH ((node, ss) :: stack) (D node [] :: ds)) as (stack' & ds' & out & A1 & A2 & A3 & A4 & A5 & A6 & A7).
      * constructor; assumption.
      * constructor; [intros x; exact Logic.I|assumption].
      * exists stack', ds', out. repeat split; auto. rewrite <- A6. unfold seg. cbn [rev]. rewrite flat_map_app. cbn. rewrite <- app_assoc. reflexivity.
    + assert (LR : forall p, last_rejects [D node []] p) by (intros p; apply R2).
      destruct (add_loop_spec False (2 * length stack + 2) stack [node] ds [D node []]) as
        (st1 & ds1 & out1 & B1 & B2 & B3 & B4 & B5 & B6 & B7 & B8 & B9 & B10); auto.
      * cbn; lia.
      * cbn [map]. rewrite f_leaf. reflexivity.
      * split; [apply valid_eq; split; [intros a x b E; destruct a; discriminate|split; exact Logic.I]|exact Logic.I].
      * split; exact Logic.I.
      * right. destruct ds as [|d ds]; [exact Logic.I|]. apply (Forall_inv SE).
      * destruct ds; [exact SE|]. apply (Forall_inv_tail SE).
      * unfold add_node. rewrite B1. cbn [bindr].
        assert (SE1 : Forall (fun d => forall x, last_rejects (d_added d) x) ds1).
        { destruct ds1 as [|d1 ds1]; constructor; [destruct B9 as [[]|B9]; exact B9|exact B10]. }
        destruct (IH st1 ds1 B2 SE1) as (stack' & ds' & out & A1 & A2 & A3 & A4 & A5 & A6 & A7).
        rewrite A1. cbn [bindr]. exists stack', ds', (out1 ++ out). rewrite map_app. split; [reflexivity|].
        assert (Z : forall a b p, last_rejects a p -> a <> [] -> b = [] -> last_rejects (a ++ b) p) by (intros; subst; rewrite app_nil_r; assumption).
        assert (LRA : forall a b p, b <> [] -> last_rejects b p -> last_rejects (a ++ b) p).
        { clear. induction a as [|x a IHa]; intros b p NE L; [exact L|]. cbn [app last_rejects].
          destruct (a ++ b) eqn:Q; [apply app_eq_nil in Q; destruct Q; congruence|]. rewrite <- Q. apply IHa; assumption. }
        repeat split; auto.
        -- apply all_valid_app. auto.
        -- apply greedy_app; auto. intros d' H. destruct out1 as [|o1 out1]; [exact Logic.I|]. destruct (B8 ltac:(discriminate)) as [[]|B8']. apply B8'.
        -- unfold seg in *. rewrite flat_map_app, <- app_assoc, <- A6. cbn [flat_map nodes_of] in B7. rewrite ?app_nil_r in B7.
           change (node :: nodes) with ([node] ++ nodes). rewrite app_assoc, B7.
           destruct B4 as [-> | ->].
           ++ inversion B2; subst. cbn. rewrite <- ?app_assoc. cbn. reflexivity.
           ++ cbn. reflexivity.
        -- intros NE p. destruct out as [|o out].
           ++ rewrite app_nil_r in *. destruct (B8 NE) as [[]|B8']. apply B8'.
           ++ apply LRA; [discriminate|]. apply A7. discriminate.
Qed.

Lemma finish_spec : forall fuel stack ds, length stack < fuel -> Forall2 entry_ok stack ds ->
  Forall (fun d => forall x, last_rejects (d_added d) x) (tl ds) ->
  exists out, finish ignore add_arg fuel stack = Ok (map f out) /\ all_valid out /\ greedy sigs ignore out /\ seg (rev ds) = seg out.
Proof.
  induction fuel as [|fuel IH]; intros stack ds L F BL; [lia|]. cbn [finish].
  destruct F as [|[parent ss] d stack ds EO F]; [exists []; repeat split; reflexivity|].
  destruct EO as (E1 & E2 & _). cbn [fst snd] in *. subst parent. cbn [tl] in BL.
  destruct (add_loop_spec True (2 * length stack + 2) stack [f d] ds [d]) as
        (st1 & ds1 & out1 & B1 & B2 & B3 & B4 & B5 & B6 & B7 & B8 & B9 & B10); auto.
  - cbn; lia.
  - split; [exact E2|exact Logic.I].
  - split; exact Logic.I.
  - right. destruct ds as [|d2 ds]; [exact Logic.I|]. apply (Forall_inv BL).
  - destruct ds; [exact BL|]. apply (Forall_inv_tail BL).
  - unfold add_node. rewrite B1. cbn [bindr]. cbn [length] in L.
    destruct (IH st1 ds1) as (out & A1 & A2 & A3 & A4); [lia|exact B2|exact B10|].
    rewrite A1. cbn [bindr]. exists (out1 ++ out). rewrite map_app. split; [reflexivity|].
    split; [apply all_valid_app; auto|].
    unfold seg in *. cbn [rev flat_map] in B7 |- *. rewrite ?app_nil_r in B7.
    destruct B4 as [-> | ->].
    + inversion B2; subst. cbn [rev flat_map] in A4. rewrite app_nil_r in B7.
      assert (out = []).
      { destruct fuel as [|fuel]; [cbn in A1; discriminate|]. cbn in A1. injection A1 as A1. destruct out; [reflexivity|discriminate]. }
      subst out. rewrite app_nil_r. split; [exact B6|]. rewrite flat_map_app. cbn. rewrite app_nil_r. exact B7.
    + cbn [app]. split; [exact A3|]. rewrite flat_map_app. cbn [flat_map]. rewrite app_nil_r, B7. exact A4.
Qed.

Theorem build_spec : forall nodes, exists out,
  build_tree_with sigs ignore add_arg nodes = Ok (map f out) /\ flat_map nodes_of out = nodes /\
  Forall (valid sigs ignore) out /\ greedy sigs ignore out.
Proof.
  intros nodes. destruct (main_spec nodes [] [] (Forall2_nil _) (Forall_nil _)) as (stack & ds & out & A1 & A2 & A3 & A4 & A5 & A6 & A7).
  destruct (finish_spec (S (length stack)) stack ds ltac:(lia) A2) as (out2 & B1 & B2 & B3 & B4).
  { destruct ds; [exact A3|]. apply (Forall_inv_tail A3). }
  unfold build_tree_with. rewrite A1. cbn [bindr]. rewrite B1. cbn [bindr]. exists (out ++ out2). rewrite map_app. split; [reflexivity|].
  split; [|split].
  - unfold seg in *. rewrite flat_map_app, <- B4. symmetry. exact A6.
  - assert (Z : forall l, all_valid l -> Forall (valid sigs ignore) l) by (clear; induction l; cbn; intros H; constructor; tauto).
    apply Z. apply all_valid_app. auto.
  - apply greedy_app; auto. intros d' H. destruct out as [|o out]; [exact Logic.I|]. apply A7. discriminate.
Qed.

(** ** There is only one such forest *)
Lemma accepts_type : forall u x y, b_ty x = b_ty y -> accepts sigs ignore u x -> accepts sigs ignore u y.
Proof. intros u x y E. unfold accepts. rewrite E. exact (fun H => H). Qed.
Lemma rejects_type : forall d x y, b_ty x = b_ty y -> rejects sigs ignore d x -> rejects sigs ignore d y.
Proof.
  induction d as [t l IH] using dt_ind2. intros x y E R. apply rejects_eq in R. destruct R as [R1 R2]. apply rejects_eq. split.
  - intros A. apply R1. exact (accepts_type _ _ _ (eq_sym E) A).
  - clear R1. induction IH as [|d r Pd F IHr]; [exact Logic.I|]. cbn [last_rejects] in *. destruct r as [|d2 r]; [eapply Pd; eauto|apply IHr; exact R2].
Qed.
Lemma tree_of_type : forall d, b_ty (tree_of d) = b_ty (d_node d).
Proof. intros [t l]. reflexivity. Qed.

(** What follows in the stream is not taken. *)
Definition stops (d : dt) (r : list bt) : Prop := match r with [] => True | x :: _ => rejects sigs ignore d x end.

Lemma nodes_of_head : forall d, exists l, nodes_of d = d_node d :: l.
Proof. intros [t l]. eexists. reflexivity. Qed.

Definition one (n : nat) := forall d d' r r', length (nodes_of d ++ r) <= n ->
  valid sigs ignore d -> valid sigs ignore d' -> stops d r -> stops d' r' -> nodes_of d ++ r = nodes_of d' ++ r' -> d = d' /\ r = r'.

Definition more (n : nat) := forall t p a a' r r', length (seg a ++ r) <= n ->
  well_added sigs ignore t (map tree_of (p ++ a)) -> well_added sigs ignore t (map tree_of (p ++ a')) ->
  greedy sigs ignore a -> greedy sigs ignore a' -> all_valid a -> all_valid a' ->
  stops (D t (p ++ a)) r -> stops (D t (p ++ a')) r' -> seg a ++ r = seg a' ++ r' -> a = a' /\ r = r'.

Lemma one_of_more : forall n, more n -> one (S n).
Proof.
  intros n M [t a] [t' a'] r r' L V V' S S' E. cbn [nodes_of app length] in *. injection E as <- E.
  apply valid_eq in V, V'. destruct V as (W & G & A), V' as (W' & G' & A').
  destruct (M t [] a a' r r') as [-> ->]; auto. unfold seg. lia.
Qed.

Lemma not_taken : forall t p d a r, well_added sigs ignore t (map tree_of (p ++ d :: a)) -> stops (D t p) (seg (d :: a) ++ r) -> False.
Proof.
  intros t p d a r W S. destruct (nodes_of_head d) as (l & Hd). unfold seg in S. cbn [flat_map] in S. rewrite Hd in S. cbn [app stops] in S.
  apply rejects_eq in S. destruct S as [S _]. apply S.
  apply (accepts_type _ (tree_of d)); [apply tree_of_type|]. apply (W (map tree_of p) (tree_of d) (map tree_of a)). rewrite map_app. reflexivity.
Qed.

Lemma stops_last : forall t p d a r, stops (D t (p ++ d :: a)) r -> greedy sigs ignore (d :: a) -> stops d (seg a ++ r).
Proof.
  intros t p d a r S [G _]. destruct a as [|d2 a].
  - cbn [seg flat_map app]. destruct r as [|x r]; [exact Logic.I|]. cbn [stops] in *. apply rejects_eq in S. destruct S as [_ S]. apply last_rejects_snoc in S. exact S.
  - destruct (nodes_of_head d2) as (l & Hd). unfold seg. cbn [flat_map]. rewrite Hd. cbn [app stops].
    apply (rejects_type _ (tree_of d2)); [apply tree_of_type|exact G].
Qed.

Lemma all_more : forall n, more n.
Proof.
  induction n as [n IH] using lt_wf_ind. intros t p a a' r r' L W W' G G' A A' S S' E.
  destruct a as [|d a], a' as [|d' a'].
  - cbn in E. auto.
  - exfalso. rewrite app_nil_r in S. cbn [seg flat_map app] in E. rewrite E in S. eapply not_taken; eauto.
  - exfalso. rewrite app_nil_r in S'. cbn [seg flat_map app] in E. rewrite <- E in S'. eapply not_taken; eauto.
  - pose proof (stops_last _ _ _ _ _ S G) as T. pose proof (stops_last _ _ _ _ _ S' G') as T'.
    unfold seg in *. cbn [flat_map] in E, L. rewrite <- (app_assoc (nodes_of d)) in E, L. rewrite <- (app_assoc (nodes_of d')) in E.
    destruct A as [Vd A], A' as [Vd' A'].
    assert (O : one n).
    { destruct n as [|n]; [|apply one_of_more, IH; lia]. exfalso. destruct (nodes_of_head d) as (l & Hd). rewrite Hd in L. cbn in L. lia. }
    destruct (O d d' _ _ L Vd Vd' T T' E) as [<- E2].
    destruct (nodes_of_head d) as (l & Hd). rewrite Hd in L. cbn [app length] in L. rewrite app_length in L.
    assert (P : forall x, p ++ d :: x = (p ++ [d]) ++ x) by (intros; rewrite <- app_assoc; reflexivity). rewrite P in W, W', S, S'.
    destruct (IH (length (flat_map nodes_of a ++ r)) ltac:(lia) t (p ++ [d]) a a' r r') as [-> ->]; auto.
    + destruct G; assumption.
    + destruct G'; assumption.
Qed.

Theorem forest_unique : forall ds ds', all_valid ds -> all_valid ds' -> greedy sigs ignore ds -> greedy sigs ignore ds' ->
  flat_map nodes_of ds = flat_map nodes_of ds' -> ds = ds'.
Proof.
  assert (T : forall d a, greedy sigs ignore (d :: a) -> stops d (flat_map nodes_of a)).
  { intros d a [G _]. destruct a as [|d2 a]; [exact Logic.I|]. destruct (nodes_of_head d2) as (l & Hd). cbn [flat_map]. rewrite Hd. cbn [app stops].
    apply (rejects_type _ (tree_of d2)); [apply tree_of_type|exact G]. }
  induction ds as [|d ds IH]; intros ds' V V' G G' E; destruct ds' as [|d' ds']; [reflexivity| | |].
  - exfalso. destruct (nodes_of_head d') as (l & Hd). cbn [flat_map] in E. rewrite Hd in E. discriminate.
  - exfalso. destruct (nodes_of_head d) as (l & Hd). cbn [flat_map] in E. rewrite Hd in E. discriminate.
  - cbn [flat_map] in E. destruct V as [Vd V], V' as [Vd' V'].
    destruct (one_of_more _ (all_more (length (nodes_of d ++ flat_map nodes_of ds))) d d' _ _ (Nat.le_succ_diag_r _) Vd Vd' (T _ _ G) (T _ _ G') E) as [<- E2].
    f_equal. apply IH; auto; [destruct G|destruct G']; assumption.
Qed.

Theorem build_complete : forall ds, Forall (valid sigs ignore) ds -> greedy sigs ignore ds ->
  build_tree_with sigs ignore add_arg (flat_map nodes_of ds) = Ok (map f ds).
Proof.
  intros ds V G. destruct (build_spec (flat_map nodes_of ds)) as (out & A & B & C & D0). rewrite A. do 2 f_equal.
  assert (Z : forall l, Forall (valid sigs ignore) l -> all_valid l) by (induction 1; cbn; auto).
  apply forest_unique; auto.
Qed.
End BuildP.

Section Instances.
Variable sigs : nat -> option (list signature).
Variable ignore : nat -> bool.
Hypothesis sens : sensible sigs.

Theorem plain_spec : forall nodes, exists out,
  build_tree sigs ignore nodes = Ok (map tree_of out) /\ flat_map nodes_of out = nodes /\
  Forall (valid sigs ignore) out /\ greedy sigs ignore out.
Proof.
  apply build_spec; auto.
  - intros [i y k]. cbn. rewrite app_nil_r. reflexivity.
  - exact tree_of_add.
Qed.
Theorem plain_complete : forall ds, Forall (valid sigs ignore) ds -> greedy sigs ignore ds ->
  build_tree sigs ignore (flat_map nodes_of ds) = Ok (map tree_of ds).
Proof.
  apply build_complete; auto.
  - intros [i y k]. cbn. rewrite app_nil_r. reflexivity.
  - exact tree_of_add.
Qed.

(** Any way of adding arguments that keeps the type of the node they are added to. *)
Variable add_arg : bt -> bt -> bt.
Hypothesis keeps : forall p x, b_ty (add_arg p x) = b_ty p.

Definition go_made := fix go (p : bt) (l : list dt) : bt := match l with [] => p | x :: r => go (add_arg p (made add_arg x)) r end.
Lemma made_eq : forall t l, made add_arg (D t l) = go_made t l.
Proof. reflexivity. Qed.
Lemma go_made_app : forall a b p, go_made p (a ++ b) = go_made (go_made p a) b.
Proof. induction a as [|x a IH]; intros b p; [reflexivity|]. cbn [app go_made]. apply IH. Qed.
Lemma made_add : forall d x, made add_arg (add_d d x) = add_arg (made add_arg d) (made add_arg x).
Proof. intros [t l] x. unfold add_d. cbn [d_node d_added]. rewrite !made_eq, go_made_app. reflexivity. Qed.
Lemma made_type : forall d, b_ty (made add_arg d) = b_ty (tree_of d).
Proof.
  intros [t l]. rewrite made_eq. cbn [tree_of b_ty]. revert t. induction l as [|x l IH]; intros t; [reflexivity|]. cbn [go_made]. rewrite IH. apply keeps.
Qed.
Theorem made_spec : forall nodes, exists out,
  build_tree_with sigs ignore add_arg nodes = Ok (map (made add_arg) out) /\ flat_map nodes_of out = nodes /\
  Forall (valid sigs ignore) out /\ greedy sigs ignore out.
Proof. apply build_spec; auto using made_add, made_type. Qed.
Theorem made_complete : forall ds, Forall (valid sigs ignore) ds -> greedy sigs ignore ds ->
  build_tree_with sigs ignore add_arg (flat_map nodes_of ds) = Ok (map (made add_arg) ds).
Proof. apply build_complete; auto using made_add, made_type. Qed.
End Instances.
