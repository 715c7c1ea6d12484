(** Properties C53-C55 and C69: adding children, building trees, mapped heads. *)
From Coq Require Import String Ascii List Arith Bool Lia.
From Verif Require Import Base Build_Model Build_Spec Build_Proofs.
Import ListNotations.

(** * C53 *)
Theorem C53_add : forall N (order : list (N -> bool)) node kids,
  in_child_order order kids ->
  in_child_order order (add N node [order] kids) /\ inserted node kids (add N node [order] kids).
Proof. intros. split; [apply add_one_order; assumption|apply add_inserted]. Qed.
Print Assumptions C53_add.

(** Whatever the orders and the children are, the node is inserted once and nothing else changes. *)
Theorem C53_inserted : forall N (orders : list (list (N -> bool))) node kids, inserted node kids (add N node orders kids).
Proof. intros. apply add_inserted. Qed.
Print Assumptions C53_inserted.

(** The order of a Note (lily.py:1482): octave, accidental, octave check, duration, articulations, comment. *)
Example C53_witness :
  let order := [Nat.eqb 0; Nat.eqb 1; Nat.eqb 2; Nat.eqb 3; Nat.eqb 4; Nat.eqb 5] in
  in_child_order order [0; 3; 4; 4; 5] /\ add nat 2 [order] [0; 3; 4; 4; 5] = [0; 2; 3; 4; 4; 5] /\
  add nat 5 [order] [0; 3] = [0; 3; 5] /\ add nat 4 [order] [0; 4; 5] = [0; 4; 4; 5].
Proof.
  cbv zeta. split; [|repeat split].
  repeat (apply in_child_order_cons; split;
    [intros b I; repeat (destruct I as [<-|I]; [cbn; lia|]); destruct I|]).
  apply in_child_order_nil.
Qed.

(** With more than one child order a place found in a later order need not respect the first;
    no class in the repository has more than one. *)
Theorem C53_two_orders_finding :
  let o1 := [Nat.eqb 0; Nat.eqb 1] in let o2 := [Nat.eqb 1] in
  in_child_order o1 [0; 0] /\ ~ in_child_order o1 (add nat 1 [o1; o2] [0; 0]).
Proof.
  cbv zeta. split.
  - repeat (apply in_child_order_cons; split;
      [intros b I; repeat (destruct I as [<-|I]; [cbn; lia|]); destruct I|]).
    apply in_child_order_nil.
  - intros H. specialize (H [] 1 [] 0 [0] eq_refl). cbn in H. lia.
Qed.
Print Assumptions C53_two_orders_finding.

(** * C54 *)
Lemma preorder_app : forall i y k, preorder (B i y k) = (i, y) :: preorders k.
Proof.
  intros i y k. cbn [preorder]. f_equal.
Qed.

Lemma preorder_tree_of : forall d, preorder (tree_of d) = preorders (nodes_of d).
Proof.
  induction d as [t l IH] using dt_ind2. cbn [tree_of nodes_of]. rewrite preorder_app.
  unfold preorders in *. rewrite flat_map_app. cbn [flat_map].
  destruct t as [i y k]. cbn [b_id b_ty b_kids]. rewrite preorder_app. cbn [app]. f_equal. unfold preorders. f_equal.
  induction IH as [|d r Pd F IHr]; [reflexivity|]. cbn [map flat_map]. rewrite Pd, IHr, flat_map_app. reflexivity.
Qed.

(** build_tree succeeds and yields trees made of the nodes of the stream, in
    document order; arguments are only added if they match a signature of the node they
    are added to; no tree could have taken the tree after it as an argument. *)
Theorem C54_build_tree : forall sigs ignore nodes, sensible sigs ->
  exists out, build_tree sigs ignore nodes = Ok (map tree_of out) /\ flat_map nodes_of out = nodes /\
    preorders (map tree_of out) = preorders nodes /\
    Forall (valid sigs ignore) out /\ greedy sigs ignore out.
Proof.
  intros sigs ignore nodes S. destruct (plain_spec sigs ignore S nodes) as (out & A & B & C & D0).
  exists out. split; [exact A|]. split; [exact B|]. split; [|split; assumption].
  rewrite <- B. clear. induction out as [|d r IH]; [reflexivity|].
  cbn [map flat_map]. unfold preorders in *. cbn [flat_map]. rewrite preorder_tree_of, IH. unfold preorders. rewrite flat_map_app. reflexivity.
Qed.
Print Assumptions C54_build_tree.

(** There is only one way to do that: any forest in which each argument could be taken when it came, and in which nothing
    was left that could have been taken, is what build_tree makes of its nodes in document order. *)
Theorem C54_unique : forall sigs ignore ds, sensible sigs -> Forall (valid sigs ignore) ds -> greedy sigs ignore ds ->
  build_tree sigs ignore (flat_map nodes_of ds) = Ok (map tree_of ds).
Proof. intros sigs ignore ds S V G. apply plain_complete; assumption. Qed.
Print Assumptions C54_unique.

(** The same if add_argument is overridden, as long as the node keeps its type: each argument is given to add_argument when it is complete, in order. *)
Theorem C54_overridden : forall sigs ignore add_arg nodes, sensible sigs -> (forall p x, b_ty (add_arg p x) = b_ty p) ->
  exists out, build_tree_with sigs ignore add_arg nodes = Ok (map (made add_arg) out) /\ build_tree sigs ignore nodes = Ok (map tree_of out) /\
    flat_map nodes_of out = nodes /\ Forall (valid sigs ignore) out /\ greedy sigs ignore out.
Proof.
  intros sigs ignore add_arg nodes S K. destruct (made_spec sigs ignore S add_arg K nodes) as (out & A & B & C & G).
  exists out. split; [exact A|]. split; [|auto]. rewrite <- B. apply plain_complete; assumption.
Qed.
Print Assumptions C54_overridden.

(** A stream of nodes without signatures passes unchanged. *)
Theorem C54_unchanged : forall sigs ignore nodes, (forall n, In n nodes -> sigs (b_ty n) = None) ->
  build_tree sigs ignore nodes = Ok nodes.
Proof.
  intros sigs ignore nodes H. unfold build_tree, build_tree_with.
  assert (G : main_loop sigs ignore add_argument nodes [] = Ok ([], nodes)).
  { induction nodes as [|n r IH]; [reflexivity|]. cbn [main_loop]. rewrite (H n (or_introl eq_refl)). cbn [bindr].
    unfold add_node. cbn [length Nat.mul Nat.add add_loop bindr]. rewrite IH by (intros m I; apply H; right; exact I). reflexivity. }
  rewrite G. cbn. rewrite app_nil_r. reflexivity.
Qed.
Print Assumptions C54_unchanged.

(** Types: 0 a command with signatures (1, 2) and (2), 1 a pitch, 2 music, 3 a comment (ignored). *)
Definition ex_sigs (y : nat) : option (list signature) :=
  if Nat.eqb y 0 then Some [[Nat.eqb 1; fun t => Nat.eqb t 2 || Nat.eqb t 0]; [fun t => Nat.eqb t 2 || Nat.eqb t 0]] else None.
Example C54_witness : sensible ex_sigs /\
  build_tree ex_sigs (Nat.eqb 3) [B 10 0 []; B 11 1 []; B 12 3 []; B 13 0 []; B 14 2 []; B 15 1 []; B 16 0 []; B 17 1 []; B 18 1 []]
  = Ok [B 10 0 [B 11 1 []; B 12 3 []; B 13 0 [B 14 2 []]]; B 15 1 []; B 16 0 [B 17 1 []]; B 18 1 []].
Proof.
  split; [|reflexivity]. intros y ss E. unfold ex_sigs in E. destruct (Nat.eqb y 0); [|discriminate].
  injection E as <-. intros s [<-|[<-|[]]]; discriminate.
Qed.

(** A command with its pitch, a comment and its music, and then a pitch that is nobody's. *)
Example C54_unique_witness :
  let ds := [D (B 10 0 []) [D (B 11 1 []) []; D (B 12 3 []) []; D (B 13 2 []) []]; D (B 14 1 []) []] in
  Forall (valid ex_sigs (Nat.eqb 3)) ds /\ greedy ex_sigs (Nat.eqb 3) ds /\ map b_id (flat_map nodes_of ds) = [10; 11; 12; 13; 14].
Proof.
  cbv zeta.
  assert (L : forall i y, y <> 0 -> forall x, ~ accepts ex_sigs (Nat.eqb 3) (B i y []) x).
  { intros i y N x (ss & S & _). unfold ex_sigs in S. cbn in S. destruct y; [congruence|discriminate]. }
  assert (F : forall k x, length (arguments (Nat.eqb 3) k) = 2 -> ~ accepts ex_sigs (Nat.eqb 3) (B 10 0 k) x).
  { intros k x N (ss & S & [(-> & _)|(s & I & Ls & _)]); [discriminate|]. cbn [b_kids] in Ls. rewrite N in Ls. injection S as <-.
    destruct I as [<-|[<-|[]]]; cbn in Ls; lia. }
  assert (W : forall y, y <> 0 -> well_added ex_sigs (Nat.eqb 3) (B 14 y []) []) by (intros y _ a x b E; destruct a; discriminate).
  split; [|split; [|reflexivity]].
  - constructor; [|constructor; [|constructor]]; cbn [valid map greedy rejects tree_of b_id b_ty b_kids app].
    + split; [|split].
      * intros a x b E. exists [[Nat.eqb 1; fun t => Nat.eqb t 2 || Nat.eqb t 0]; [fun t => Nat.eqb t 2 || Nat.eqb t 0]]. split; [reflexivity|]. right.
        exists [Nat.eqb 1; fun t => Nat.eqb t 2 || Nat.eqb t 0]. split; [left; reflexivity|].
        destruct a as [|x1 [|x2 [|x3 a]]]; injection E; intros; subst; try (destruct a; discriminate); cbn; (split; [lia|]); repeat (constructor; try reflexivity).
      * repeat split; try (apply L; discriminate).
      * repeat split; intros a x b E; destruct a; discriminate.
    + repeat split; intros a x b E; destruct a; discriminate.
  - cbn [greedy rejects tree_of b_id b_ty b_kids app map]. split; [|split; exact Logic.I]. split; [apply F; reflexivity|].
    split; [apply L; discriminate|exact Logic.I].
Qed.

(** * C55 *)
Section MapP.
Context {A W : Type} (eqb : A -> A -> bool) (H : forall a b, eqb a b = true <-> a = b).

Lemma eqb_r : forall a, eqb a a = true. Proof. intros; apply H; reflexivity. Qed.
Lemma eqb_n : forall a b, a <> b -> eqb a b = false. Proof. intros a b N. destruct (eqb a b) eqn:E; [apply H in E; congruence|reflexivity]. Qed.

Lemma find_put : forall (d : list (A * W)) k w j, dict_find eqb (dict_put eqb d k w) j = if eqb k j then Some w else dict_find eqb d j.
Proof.
  induction d as [|[i v] d IH]; intros k w j; cbn; [reflexivity|].
  destruct (eqb i k) eqn:E.
  - apply H in E. subst i. cbn. destruct (eqb k j); reflexivity.
  - cbn. rewrite IH. destruct (eqb i j) eqn:F; [|reflexivity]. apply H in F. subst i.
    destruct (eqb k j) eqn:G; [apply H in G; subst; rewrite eqb_r in E; discriminate|reflexivity].
Qed.

Lemma find_in : forall (d : list (A * W)) k w, dict_find eqb d k = Some w -> In (k, w) d.
Proof.
  induction d as [|[i v] d IH]; intros k w F; [discriminate|]. cbn in F. destruct (eqb i k) eqn:E.
  - apply H in E. injection F as ->. subst. left; reflexivity.
  - right; auto.
Qed.
Lemma in_find : forall (d : list (A * W)) k w, NoDup (map fst d) -> In (k, w) d -> dict_find eqb d k = Some w.
Proof.
  induction d as [|[i v] d IH]; intros k w N I; [destruct I|]. cbn in *. inversion N as [|? ? N1 N2]; subst.
  destruct I as [I|I].
  - injection I; intros; subst. rewrite eqb_r. reflexivity.
  - rewrite eqb_n; [auto|]. intros ->. apply N1. apply in_map_iff. exists (k, w). auto.
Qed.
End MapP.

Section C55.
Context {K V : Type} (keqb : K -> K -> bool) (veqb : V -> V -> bool).
Hypothesis HK : forall a b, keqb a b = true <-> a = b.
Hypothesis HV : forall a b, veqb a b = true <-> a = b.

Lemma inverted_find : forall (m : list (K * V)) d v,
  (forall k, dict_find veqb (fold_left (fun d kv => dict_put veqb d (snd kv) (fst kv)) m d) v = Some k ->
     In (k, v) m \/ dict_find veqb d v = Some k) /\
  ((exists k, In (k, v) m) \/ dict_find veqb d v <> None ->
     dict_find veqb (fold_left (fun d kv => dict_put veqb d (snd kv) (fst kv)) m d) v <> None).
Proof.
  induction m as [|[k0 v0] m IH]; intros d v; cbn [fold_left fst snd].
  - split; [auto|]. intros [(k & [])|N]; exact N.
  - destruct (IH (dict_put veqb d v0 k0) v) as [A B]. split.
    + intros k F. destruct (A k F) as [I|I]; [left; right; exact I|].
      rewrite (find_put veqb HV) in I. destruct (veqb v0 v) eqn:E; [|right; exact I].
      apply HV in E. injection I as <-. subst. left; left; reflexivity.
    + intros C. apply B. rewrite (find_put veqb HV). destruct (veqb v0 v) eqn:E; [right; discriminate|].
      destruct C as [(k & [I|I])|C]; [injection I; intros; subst; rewrite (eqb_r veqb HV) in E; discriminate|left; eauto|right; exact C].
Qed.

Lemma inverted_some : forall (m : list (K * V)) v k, dict_find veqb (inverted K V veqb m) v = Some k -> In (k, v) m.
Proof. intros m v k F. destruct (proj1 (inverted_find m [] v) k F) as [I|I]; [exact I|discriminate]. Qed.
Lemma inverted_none : forall (m : list (K * V)) v, dict_find veqb (inverted K V veqb m) v = None -> forall k, ~ In (k, v) m.
Proof. intros m v F k I. apply (proj2 (inverted_find m [] v)); [left; eauto|exact F]. Qed.

(** The keys of a dictionary are distinct; one-to-one: so are the values. *)
Theorem C55_read_write : forall (m : list (K * V)) t v, NoDup (map fst m) -> NoDup (map snd m) ->
  read_head K V keqb m t = Ok v -> write_head K V veqb m v = Ok t.
Proof.
  intros m t v N1 N2 R. unfold read_head in R. destruct (dict_find keqb m t) as [w|] eqn:F; [|discriminate]. injection R as ->.
  apply (find_in keqb HK) in F. unfold write_head.
  destruct (dict_find veqb (inverted K V veqb m) v) as [k|] eqn:G; [|exfalso; exact (inverted_none _ _ G _ F)].
  apply inverted_some in G. f_equal.
  clear N1. induction m as [|[a b] m IH]; [destruct F|]. cbn in N2. inversion N2 as [|? ? N3 N4]; subst.
  destruct F as [F|F]; destruct G as [G|G].
  - congruence.
  - injection F; intros; subst. exfalso. apply N3. apply in_map_iff. exists (k, v). auto.
  - injection G; intros; subst. exfalso. apply N3. apply in_map_iff. exists (t, v). auto.
  - auto.
Qed.

(** The text written for any accepted head reads as that head, also if the mapping is not one-to-one. *)
Theorem C55_write_read : forall (m : list (K * V)) t v, NoDup (map fst m) ->
  write_head K V veqb m v = Ok t -> read_head K V keqb m t = Ok v.
Proof.
  intros m t v N R. unfold write_head in R. destruct (dict_find veqb (inverted K V veqb m) v) as [k|] eqn:F; [|discriminate]. injection R as ->.
  apply inverted_some in F. unfold read_head. rewrite (in_find keqb HK _ _ _ N F). reflexivity.
Qed.

Theorem C55_check : forall (m : list (K * V)) v, check_head K V veqb m v = true <-> exists t, In (t, v) m.
Proof.
  intros m v. unfold check_head. destruct (dict_find veqb (inverted K V veqb m) v) as [k|] eqn:F.
  - apply inverted_some in F. split; eauto.
  - split; [discriminate|]. intros (t & I). exfalso. exact (inverted_none _ _ F _ I).
Qed.

(** Every accepted head can be written. *)
Theorem C55_writable : forall (m : list (K * V)) v, check_head K V veqb m v = true <-> exists t, write_head K V veqb m v = Ok t.
Proof.
  intros m v. unfold check_head, write_head. destruct (dict_find veqb (inverted K V veqb m) v) as [k|].
  - split; eauto.
  - split; [discriminate|]. intros (t & E). discriminate.
Qed.
End C55.
Print Assumptions C55_read_write.
Print Assumptions C55_write_read.
Print Assumptions C55_check.
Print Assumptions C55_writable.

(** A toggle with two different texts: both values are accepted, written and read. *)
Theorem C55_toggle : forall K (keqb : K -> K -> bool) on off, (forall a b, keqb a b = true <-> a = b) -> on <> off ->
  let m := toggle_mapping keqb on off in
  read_head K bool keqb m on = Ok true /\ read_head K bool keqb m off = Ok false /\
  write_head K bool Bool.eqb m true = Ok on /\ write_head K bool Bool.eqb m false = Ok off /\
  forall b, check_head K bool Bool.eqb m b = true.
Proof.
  intros K keqb on off H N m.
  assert (M : m = [(on, true); (off, false)]).
  { unfold m, toggle_mapping. cbn. rewrite (eqb_n keqb H) by exact N. reflexivity. }
  rewrite M. unfold read_head, write_head, check_head. cbn. rewrite !(eqb_r keqb H), (eqb_n keqb H) by exact N.
  repeat split; auto. intros []; reflexivity.
Qed.
Print Assumptions C55_toggle.

Example C55_witness :
  let m := [(5, 50); (6, 60); (7, 70)] in
  NoDup (map fst m) /\ NoDup (map snd m) /\ read_head nat nat Nat.eqb m 6 = Ok 60 /\ write_head nat nat Nat.eqb m 60 = Ok 6 /\
  read_head nat nat Nat.eqb m 8 = Err KeyError /\ check_head nat nat Nat.eqb m 6 = false.
Proof. cbv zeta. repeat split; repeat constructor; cbn; lia. Qed.

(** * C69: head_mapping maps a text to the last of the types that have it as a head *)
Definition has_text {K} (h : heads K) (t : K) : Prop :=
  match h with Mapped ks => In t ks | Fixed k => k = t | Neither => False end.

Theorem C69_head_mapping : forall K C (keqb : K -> K -> bool) (types : list (C * heads K)) t c,
  (forall a b, keqb a b = true <-> a = b) ->
  (dict_find keqb (head_mapping keqb types) t = Some c <->
   exists l1 h l2, types = l1 ++ (c, h) :: l2 /\ has_text h t /\ forall c' h', In (c', h') l2 -> ~ has_text h' t).
Proof.
  intros K C keqb types t c H.
  set (step := fun (d : list (K * C)) (ch : C * heads K) =>
    match snd ch with
    | Mapped ks => fold_left (fun d k => dict_put keqb d k (fst ch)) ks d
    | Fixed h => dict_put keqb d h (fst ch)
    | Neither => d
    end).
  assert (ST : forall d ch, (has_text (snd ch) t -> dict_find keqb (step d ch) t = Some (fst ch)) /\
                            (~ has_text (snd ch) t -> dict_find keqb (step d ch) t = dict_find keqb d t)).
  { intros d [c0 h]. unfold step. cbn [snd fst]. destruct h as [ks|k|]; cbn [has_text].
    - assert (FP : forall ks d, (In t ks -> dict_find keqb (fold_left (fun d k => dict_put keqb d k c0) ks d) t = Some c0) /\
         (~ In t ks -> dict_find keqb (fold_left (fun d k => dict_put keqb d k c0) ks d) t = dict_find keqb d t)).
      { clear d ks. induction ks as [|k ks IH]; intros d; [split; [intros []|reflexivity]|]. cbn [fold_left].
        destruct (IH (dict_put keqb d k c0)) as [A B].
        assert (DEC : In t ks \/ ~ In t ks).
        { clear -H. induction ks as [|x ks IHk]; [right; intros []|]. destruct (keqb x t) eqn:E; [apply H in E; left; left; exact E|].
          destruct IHk as [I|I]; [left; right; exact I|right]. intros [->|J]; [rewrite (eqb_r keqb H) in E; discriminate|auto]. }
        split.
        - intros I. destruct DEC as [J|J]; [auto|]. rewrite (B J), (find_put keqb H). destruct I as [->|I]; [|contradiction].
          rewrite (eqb_r keqb H). reflexivity.
        - intros N. rewrite B by (intros J; apply N; right; exact J). rewrite (find_put keqb H), (eqb_n keqb H); [reflexivity|].
          intros ->. apply N. left; reflexivity. }
      apply FP.
    - rewrite (find_put keqb H). split; [intros ->; rewrite (eqb_r keqb H); reflexivity|intros N; rewrite (eqb_n keqb H) by exact N; reflexivity].
    - split; [intros []|reflexivity]. }
  assert (DEC : forall h : heads K, has_text h t \/ ~ has_text h t).
  { intros [ks|k|]; cbn [has_text]; [| |right; intros []].
    - induction ks as [|x ks IHk]; [right; intros []|]. destruct (keqb x t) eqn:E; [apply H in E; left; left; exact E|].
      destruct IHk as [I|I]; [left; right; exact I|right]. intros [->|J]; [rewrite (eqb_r keqb H) in E; discriminate|auto].
    - destruct (keqb k t) eqn:E; [left; apply H; exact E|right]. intros ->. rewrite (eqb_r keqb H) in E; discriminate. }
  unfold head_mapping. fold step.
  assert (G : forall types d, dict_find keqb (fold_left step types d) t = Some c <->
    (exists l1 h l2, types = l1 ++ (c, h) :: l2 /\ has_text h t /\ (forall c' h', In (c', h') l2 -> ~ has_text h' t)) \/
    (dict_find keqb d t = Some c /\ forall c' h', In (c', h') types -> ~ has_text h' t)).
  { clear types. induction types as [|[c0 h0] types IH]; intros d; cbn [fold_left].
    - split; [intros F; right; split; [exact F|intros c' h' []]|]. intros [(l1 & h & l2 & E & _)|[F _]]; [destruct l1; discriminate|exact F].
    - rewrite IH. destruct (ST d (c0, h0)) as [S1 S2]. cbn [fst snd] in *. split.
      + intros [(l1 & h & l2 & -> & A & B)|[F N]]; [left; exists ((c0, h0) :: l1), h, l2; auto|].
        destruct (DEC h0) as [D|D].
        * rewrite (S1 D) in F. injection F as ->. left. exists [], h0, types. auto.
        * rewrite (S2 D) in F. right. split; [exact F|]. intros c' h' [E|I]; [injection E; intros; subst; exact D|eauto].
      + intros [(l1 & h & l2 & E & A & B)|[F N]].
        * destruct l1 as [|x l1]; cbn in E; injection E; intros; subst.
          -- right. split; [apply S1; exact A|exact B].
          -- left. exists l1, h, l2. auto.
        * right. split; [rewrite S2; [exact F|]|]; intros; eapply N; [left|right]; eauto. }
  rewrite (G types []). split; [intros [X|[X _]]; [exact X|discriminate]|auto].
Qed.
Print Assumptions C69_head_mapping.

Example C69_witness :
  head_mapping Nat.eqb [(1, Fixed 10); (2, Mapped [11; 12]); (3, Neither); (4, Fixed 12)] = [(10, 1); (11, 2); (12, 4)].
Proof. reflexivity. Qed.
