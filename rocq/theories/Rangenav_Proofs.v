(** Proofs about walking through a range. *)
From Coq Require Import List ZArith Bool PeanoNat Sorting.Sorted Lia ZifyBool ZifyNat.
From Verif Require Import Base Node_Model Node_Spec Node_Nav Range_Model Range_Spec Range_Proofs Range_Machine Range_Extract Range_Member Rangenav_Model Rangenav_Spec.
From Verif Require Range_Edit.
Import ListNotations.

(** ** The stack of a range *)

(** [inside_at q n s' e' below]: the levels [below] lead to the node [n] at [q],
    where the boundaries are [s'] and [e'] relative to it. *)
Inductive inside_at (t : tree) (s e : option (list nat)) : list nat -> tree -> option (list nat) -> option (list nat) -> list level -> Prop :=
| in_root : inside_at t s e [] t s e []
| in_child q n s' e' below L i c : inside_at t s e q n s' e' below -> good L s' e' -> l_node L = n -> l_index L = Z.of_nat i ->
    nth_error (children n) i = Some c -> within s' e' (List.length (children n)) i = true ->
    inside_at t s e (q ++ [i]) c (inner s' i) (inner e' i) (L :: below).

Definition placed (q : list nat) (n : tree) (s' e' : option (list nat)) (L : level) (p : list nat) (b : bool) : Prop :=
  if b then p = q /\ l_index L = (-1)%Z else exists i, p = q ++ [i] /\ l_index L = Z.of_nat i /\ within s' e' (List.length (children n)) i = true.

Definition cur (t : tree) (s e : option (list nat)) (p : list nat) (b : bool) (r : range) : Prop :=
  exists q n s' e' L below, r = Range s e L below /\ inside_at t s e q n s' e' below /\ good L s' e' /\ l_node L = n /\ placed q n s' e' L p b.

Lemma reach_snoc t p n : reach t p n -> forall i c, nth_error (children n) i = Some c -> reach t (p ++ [i]) c.
Proof. intros R. induction R as [t|k ts i c p t E R IH]; intros j d H; cbn [app]; [destruct t; econstructor; [exact H|constructor]|econstructor; eauto]. Qed.
Lemma reach_app t p n q m : reach t p n -> (reach t (p ++ q) m <-> reach n q m).
Proof.
  intros R. induction R as [t|k ts i c p t E R IH]; cbn [app]; [reflexivity|]. rewrite reach_cons, <- IH. split; [intros (d & E' & X); congruence|eauto].
Qed.
Lemma exists_app t p n q : reach t p n -> (exists_at t (p ++ q) <-> exists_at n q).
Proof. intros R. unfold exists_at. split; intros (m & M); exists m; now apply (reach_app t p n q m R). Qed.

Lemma within_view t s e q n s' e' i : reach t q n -> s' = inners s q -> e' = inners e q -> reached s e q -> valid n e' ->
  (in_view t s e (q ++ [i]) <-> within s' e' (List.length (children n)) i = true).
Proof.
  intros R -> -> RE VE. unfold in_view. rewrite (exists_app t q n [i] R). destruct n as [k ts]. cbn [children]. pose proof (valid_hi k ts _ VE) as H. split.
  - intros [EX RR]. assert (EX' := EX). apply exists_cons in EX as (c & E & _). assert (I : i < List.length ts) by (apply nth_error_Some; congruence).
    apply (reached_inners s e q [i] t) in RR; [|now apply (exists_app t q _ [i] R)|exact RE]. now apply (within_reached _ _ _ i [] I) in RR as [W _].
  - intros W. assert (I : i < List.length ts) by (unfold within in W; lia). assert (EX : exists_at (T k ts) [i]) by now apply exists_one.
    split; [exact EX|]. apply (reached_inners s e q [i] t); [now apply (exists_app t q _ [i] R)|exact RE|]. apply (within_reached _ _ _ i [] I). split; [exact W|apply reached_nil].
Qed.

Lemma inside_facts t s e q n s' e' below : valid t s -> valid t e -> inside_at t s e q n s' e' below ->
  reach t q n /\ s' = inners s q /\ e' = inners e q /\ reached s e q /\ valid n s' /\ valid n e' /\ List.length below = List.length q /\ map l_index (rev below) = map Z.of_nat q.
Proof.
  intros VS VE H. induction H as [|q n s' e' below L i c H (R & S & E & RE & V1 & V2 & LN & TR) G N IX C W].
  - split; [constructor|]. split; [reflexivity|]. split; [reflexivity|]. split; [apply reached_nil|]. auto.
  - split; [eapply reach_snoc; eauto|]. split; [now rewrite inners_snoc, S|]. split; [now rewrite inners_snoc, E|].
    split; [apply (within_view t s e q n s' e' i R S E RE V2); exact W|]. destruct n as [k ts]. cbn [children] in C. split; [eapply valid_inner; eauto|]. split; [eapply valid_inner; eauto|].
    split; [rewrite app_length; cbn [List.length]; lia|]. cbn [rev]. rewrite !map_app, TR. cbn [map]. now rewrite IX.
Qed.

(** ** The indices in turn *)

Lemma hi_low e len : (-1 <= hi e len)%Z.
Proof. unfold hi. destruct e as [[|]|]; lia. Qed.

Lemma rem_spec rv L s e j : good L s e -> (l_index L = -1 \/ l_start L <= l_index L <= l_end L)%Z ->
  (In j (rem rv L) <-> within s e (List.length (children (l_node L))) j = true /\ (l_index L = (-1)%Z \/ if rv then (Z.of_nat j < l_index L)%Z else (l_index L < Z.of_nat j)%Z)).
Proof.
  intros G I. pose proof (g_lo _ _ _ G) as LO. pose proof (g_hi _ _ _ G) as HI. unfold rem, within. rewrite <- HI.
  destruct rv; [rewrite <- in_rev|]; rewrite in_seq; destruct (l_index L =? -1)%Z eqn:Q; lia.
Qed.

Lemma seq_SS k m : StronglySorted lt (seq k m).
Proof. revert k. induction m as [|m IH]; intros k; cbn [seq]; constructor; [apply IH|]. rewrite Forall_forall. intros x J. apply in_seq in J. lia. Qed.
Lemma rev_SS {A} (R : A -> A -> Prop) l : StronglySorted R l -> StronglySorted (fun a b => R b a) (rev l).
Proof.
  induction 1 as [|a l S IH F]; cbn [rev]; [constructor|]. apply SS_app; [exact IH|constructor; constructor|]. intros x y X [<-|[]]. rewrite Forall_forall in F. apply F. now apply in_rev.
Qed.
Lemma rem_sorted rv L : StronglySorted (past rv) (rem rv L).
Proof. unfold rem, past. destruct rv; [apply (rev_SS lt), seq_SS|apply seq_SS]. Qed.

Lemma placed_bound q n s' e' L p b : good L s' e' -> l_node L = n -> placed q n s' e' L p b -> (l_index L = -1 \/ l_start L <= l_index L <= l_end L)%Z /\ (l_index L <= l_end L)%Z.
Proof.
  intros G N P. pose proof (g_hi _ _ _ G) as HI. pose proof (g_lo _ _ _ G) as LO. destruct b; [destruct P as [_ ->]; pose proof (hi_low e' (List.length (children (l_node L)))); lia|].
  destruct P as (i & _ & -> & W). unfold within in W. rewrite HI, LO, N. lia.
Qed.

(** ** Where a range stands *)

Lemma cur_stands t s e p b r : valid t s -> valid t e -> cur t s e p b r -> stands r p b.
Proof.
  intros VS VE (q & n & s' & e' & L & below & -> & IN & G & N & P). destruct (inside_facts t s e q n s' e' below VS VE IN) as (R & _ & _ & _ & _ & _ & LN & TR).
  unfold stands, range_trail, range_depth. cbn [r_below r_top]. destruct b.
  - destruct P as [-> IX]. rewrite IX. cbn [Z.eqb Pos.eqb]. rewrite TR. split; [reflexivity|exact LN].
  - destruct P as (i & -> & IX & W). rewrite IX. replace (Z.of_nat i =? -1)%Z with false by lia. rewrite TR, map_app, app_length. cbn [map List.length]. split; [reflexivity|lia].
Qed.

Lemma map_of_nat_inj : forall a b, map Z.of_nat a = map Z.of_nat b -> a = b.
Proof. induction a as [|x a IH]; intros [|y b]; cbn [map]; try discriminate; [reflexivity|]. intros [= H1 H2]. f_equal; [lia|auto]. Qed.

Lemma stands_fun r p b p' b' : stands r p b -> stands r p' b' -> p = p' /\ b = b'.
Proof. intros [A1 A2] [B1 B2]. assert (p = p') by (apply map_of_nat_inj; congruence). subst p'. split; [reflexivity|]. destruct b, b'; try reflexivity; lia. Qed.

Lemma cur_node t s e p b r : valid t s -> valid t e -> cur t s e p b r -> exists m, reach t p m /\ reached s e p /\ current r = Ok m.
Proof.
  intros VS VE (q & n & s' & e' & L & below & -> & IN & G & N & P). destruct (inside_facts t s e q n s' e' below VS VE IN) as (R & S1 & E1 & RE & V1 & V2 & LN & TR).
  unfold current. cbn [r_top]. destruct b.
  - destruct P as [-> ->]. exists n. cbn [Z.eqb Pos.eqb]. rewrite N. auto.
  - destruct P as (i & -> & -> & W). assert (V : in_view t s e (q ++ [i])) by (apply (within_view t s e q n s' e' i R S1 E1 RE V2); exact W). destruct V as [[m M] RR]. exists m. split; [exact M|]. split; [exact RR|].
    replace (Z.of_nat i =? -1)%Z with false by lia. rewrite N. unfold item_at. rewrite Nat2Z.id. apply (reach_app t q n [i] m R) in M. destruct n as [k ts]. apply reach_cons in M as (c & E & M). inversion M; subst. cbn [children]. now rewrite E.
Qed.

(** ** The operations *)

Lemma cur_new t s e r : valid t s -> valid t e -> new_range t s e = Ok r -> cur t s e [] true r.
Proof.
  intros VS VE H. destruct (fresh_range t s e VS VE) as (L & E & G & N & IX). assert (r = Range s e L []) by congruence. subst r. exists [], t, s, e, L, []. repeat split; auto; try constructor; apply G.
Qed.

Lemma good_static L L' s e : good L s e -> L' = set_index L (l_index L') -> (-1 <= l_index L')%Z -> good L' s e.
Proof. intros G E I. rewrite E. now apply set_index_good. Qed.

Lemma cur_step t s e p b r rv : valid t s -> valid t e -> cur t s e p b r ->
  (step rv r = Ok None /\ forall q j, ~ in_turn t s e rv p b q j) \/
  (exists q j c r', step rv r = Ok (Some (c, r')) /\ reach t (q ++ [j]) c /\ cur t s e (q ++ [j]) false r' /\ q = level_path p b /\ foremost rv (in_turn t s e rv p b q) j).
Proof.
  intros VS VE (q & n & s' & e' & L & below & -> & IN & G & N & P). destruct (inside_facts t s e q n s' e' below VS VE IN) as (R & S1 & E1 & RE & V1 & V2 & LN & TR).
  destruct (placed_bound q n s' e' L p b G N P) as [BL BE]. pose proof (step_spec rv L s' e' G ltac:(lia)) as SP.
  assert (LP : level_path p b = q) by (unfold level_path; destruct b; [destruct P as [-> _]; reflexivity|destruct P as (i & -> & _); now rewrite removelast_last]).
  assert (TN : forall q' j, in_turn t s e rv p b q' j <-> q' = q /\ In j (rem rv L)).
  { clear LP. intros q' j. rewrite (rem_spec rv L s' e' j G BL), N, <- (within_view t s e q n s' e' j R S1 E1 RE V2). split.
    - intros T. destruct b; inversion T as [x y V|x i y V PA]; subst.
      + destruct P as [-> IX]. auto.
      + destruct P as (i' & PE & IX & W). apply app_inj_tail in PE as [-> ->]. split; [reflexivity|]. split; [exact V|]. right. unfold past in PA. rewrite IX. destruct rv; lia.
    - intros (-> & V & PA). destruct b; [destruct P as [-> _]; now constructor|]. destruct P as (i & -> & IX & W). constructor; [exact V|]. unfold past. destruct PA as [PA|PA]; [lia|]. rewrite IX in PA. destruct rv; lia. }
  pose proof (rem_sorted rv L) as SO. destruct (rem rv L) as [|j l] eqn:RM.
  - left. split; [unfold step; cbn [r_top]; unfold step_level in SP; now rewrite SP|]. intros q' j T. apply TN in T as [_ []].
  - right. destruct SP as (c & E & ST & R2 & LE). exists q, j, c, (Range s e (set_index L (Z.of_nat j)) below).
    assert (W : within s' e' (List.length (children (l_node L))) j = true) by (apply (rem_spec rv L s' e' j G BL); rewrite RM; now left).
    split; [unfold step; cbn [r_top]; unfold step_level in ST; now rewrite ST|]. rewrite N in *. split; [eapply reach_snoc; eauto|]. split.
    { exists q, n, s', e', (set_index L (Z.of_nat j)), below. split; [reflexivity|]. split; [exact IN|]. split; [apply set_index_good; [exact G|lia]|]. split; [exact N|]. exists j. auto. }
    split; [now rewrite LP|]. split; [apply TN; auto; split; [reflexivity|now left]|]. intros k T. apply TN in T as [_ K]. apply StronglySorted_inv in SO as [_ F]. rewrite Forall_forall in F.
    destruct K as [<-|K]; [destruct rv; lia|]. specialize (F k K). unfold past in F. destruct rv; lia.
Qed.

Lemma cur_enter t s e p b r : valid t s -> valid t e -> cur t s e p b r -> exists r', enter r = Ok r' /\ cur t s e p true r'.
Proof.
  intros VS VE (q & n & s' & e' & L & below & -> & IN & G & N & P). destruct (inside_facts t s e q n s' e' below VS VE IN) as (R & S1 & E1 & RE & V1 & V2 & LN & TR).
  unfold enter. cbn [r_top]. destruct b.
  - destruct P as [-> IX]. rewrite IX. cbn [Z.eqb Pos.eqb]. eexists. split; [reflexivity|]. exists q, n, s', e', L, below. repeat split; auto; apply G.
  - destruct P as (i & -> & IX & W). rewrite IX. replace (Z.of_nat i =? -1)%Z with false by lia. destruct n as [k ts]. pose proof (valid_hi k ts e' V2) as H. assert (I : i < List.length ts) by (unfold within in W; cbn [children] in W; lia).
    destruct (nth_error ts i) as [c|] eqn:E; [|apply nth_error_None in E; lia]. destruct (level_child_good L s' e' i c G ltac:(now rewrite N)) as (L' & C & G' & N' & I'). rewrite C. cbn [bindr].
    eexists. split; [reflexivity|]. exists (q ++ [i]), c, (inner s' i), (inner e' i), L', (L :: below). split; [reflexivity|]. split; [econstructor; eauto|]. split; [exact G'|]. split; [exact N'|]. split; [reflexivity|exact I'].
Qed.

Lemma cur_leave t s e p b r : valid t s -> valid t e -> cur t s e p b r ->
  let q := level_path p b in fst (leave r) = List.length q /\ cur t s e q (match q with [] => true | _ => false end) (snd (leave r)).
Proof.
  intros VS VE (q & n & s' & e' & L & below & -> & IN & G & N & P). cbn zeta.
  assert (LP : level_path p b = q) by (unfold level_path; destruct b; [destruct P as [-> _]; reflexivity|destruct P as (i & -> & _); now rewrite removelast_last]).
  rewrite LP. clear LP. unfold leave. cbn [r_below]. inversion IN as [|q' n' s1 e1 below' L' i c IN' G' N' IX C W]; subst.
  - cbn [fst snd List.length]. split; [reflexivity|]. exists [], (l_node L), s', e', (set_index L (-1)), []. split; [reflexivity|]. split; [constructor|]. split; [apply set_index_good; [exact G|lia]|]. split; [reflexivity|]. split; reflexivity.
  - cbn [fst snd]. destruct (inside_facts t s e _ _ _ _ _ VS VE IN) as (_ & _ & _ & _ & _ & _ & LN & _). split; [exact LN|].
    replace (match q' ++ [i] with [] => true | _ => false end) with false by (destruct q'; reflexivity).
    exists q', (l_node L'), s1, e1, L', below'. split; [reflexivity|]. split; [exact IN'|]. split; [exact G'|]. split; [reflexivity|]. exists i. auto.
Qed.

(** The bottom level. *)
Lemma inside_base t s e q n s' e' below L : inside_at t s e q n s' e' below -> good L s' e' -> l_node L = n -> good (List.last below L) s e /\ l_node (List.last below L) = t.
Proof.
  intros H. revert L. induction H as [|q n s' e' below L0 i c H IH G0 N0 IX C W]; intros L G N; [auto|]. cbn [List.last]. destruct below as [|b below]; [inversion H; subst; auto|].
  specialize (IH L0 G0 N0). assert (X : forall d d' : level, List.last (b :: below) d = List.last (b :: below) d') by (clear; revert b; induction below as [|x l IH]; intros b d d'; [reflexivity|cbn [List.last] in *; apply IH]).
  rewrite (X L L0). exact IH.
Qed.

Lemma cur_reset t s e p b r : cur t s e p b r -> cur t s e [] true (reset r).
Proof.
  intros (q & n & s' & e' & L & below & -> & IN & G & N & P). destruct (inside_base t s e q n s' e' below L IN G N) as [G0 N0]. unfold reset, base_level. cbn [r_below r_top r_start_trail r_end_trail].
  exists [], t, s, e, (set_index (List.last below L) (-1)), []. split; [reflexivity|]. split; [constructor|]. split; [apply set_index_good; [exact G0|lia]|]. split; [exact N0|]. split; reflexivity.
Qed.

Lemma cur_down t s e : valid t s -> valid t e -> forall p q n s' e' L below, p <> [] -> inside_at t s e q n s' e' below -> good L s' e' -> l_node L = n -> exists_at n p -> reached s' e' p ->
  exists r, go_down (Range s e L below) p = Ok r /\ cur t s e (q ++ p) false r.
Proof.
  intros VS VE. induction p as [|i p IH]; intros q n s' e' L below NE IN G N EX RE; [congruence|]. destruct n as [k ts]. assert (EX' := EX). apply exists_cons in EX as (c & E & EC). assert (I : i < List.length ts) by (apply nth_error_Some; congruence).
  apply (within_reached s' e' _ i p I) in RE as [W RP]. cbn [go_down with_top r_top r_start_trail r_end_trail r_below]. set (L1 := set_index L (Z.of_nat i)). assert (G1 : good L1 s' e') by (apply set_index_good; [exact G|lia]).
  destruct p as [|j p].
  - eexists. split; [reflexivity|]. exists q, (T k ts), s', e', L1, below. split; [reflexivity|]. split; [exact IN|]. split; [exact G1|]. split; [exact N|]. exists i. auto.
  - destruct (level_child_good L1 s' e' i c G1) as (L2 & C2 & G2 & N2 & I2); [cbn [L1 set_index l_node]; now rewrite N|]. cbn [l_index L1 set_index] in *. fold L1. rewrite C2. cbn [bindr].
    destruct (IH (q ++ [i]) c (inner s' i) (inner e' i) L2 (L1 :: below)) as (r & X & CR); try assumption; [discriminate|econstructor; eauto|]. exists r. split; [exact X|]. now rewrite <- app_assoc in CR.
Qed.

Lemma cur_goto t s e p b r p' : valid t s -> valid t e -> cur t s e p b r -> exists_at t p' -> reached s e p' ->
  exists r', goto_trail r (Some p') = Ok r' /\ cur t s e p' (match p' with [] => true | _ => false end) r'.
Proof.
  intros VS VE C EX RE. apply cur_reset in C. unfold goto_trail. destruct p' as [|i p']; [cbn [go_down]; eauto|]. destruct C as (q & n & s' & e' & L & below & EQ & IN & G & N & P). destruct P as [Q _]. subst q.
  rewrite EQ. inversion IN as [|q' ? ? ? ? ? ? ? ? ? ? ? ? ? Q]; subst; [|destruct q'; discriminate]. destruct (cur_down (l_node L) s' e' VS VE (i :: p') [] _ _ _ L [] ltac:(discriminate) IN G eq_refl EX RE) as (r' & X & C). eauto.
Qed.

Lemma cur_index t s e p b r i : valid t s -> valid t e -> cur t s e p b r ->
  let q := level_path p b in
  ((0 <= i)%Z /\ in_view t s e (q ++ [Z.to_nat i]) -> exists r', set_range_index r i = Ok r' /\ cur t s e (q ++ [Z.to_nat i]) false r') /\
  (~ ((0 <= i)%Z /\ in_view t s e (q ++ [Z.to_nat i])) -> set_range_index r i = Err ValueError).
Proof.
  intros VS VE (q & n & s' & e' & L & below & -> & IN & G & N & P). destruct (inside_facts t s e q n s' e' below VS VE IN) as (R & S1 & E1 & RE & V1 & V2 & LN & TR). cbn zeta.
  assert (LP : level_path p b = q) by (unfold level_path; destruct b; [destruct P as [-> _]; reflexivity|destruct P as (k & -> & _); now rewrite removelast_last]).
  rewrite LP, (within_view t s e q n s' e' (Z.to_nat i) R S1 E1 RE V2). unfold set_range_index. cbn [r_top with_top r_start_trail r_end_trail r_below]. rewrite (g_lo _ _ _ G), (g_hi _ _ _ G), N. unfold within. split.
  - intros [I W]. replace ((i <? Z.of_nat (lo s')) || (hi e' (List.length (children n)) <? i))%Z with false by lia. eexists. split; [reflexivity|].
    exists q, n, s', e', (set_index L i), below. split; [reflexivity|]. split; [exact IN|]. split; [apply set_index_good; [exact G|lia]|]. split; [exact N|]. exists (Z.to_nat i). split; [reflexivity|]. split; [cbn; lia|exact W].
  - intros NI. replace ((i <? Z.of_nat (lo s')) || (hi e' (List.length (children n)) <? i))%Z with true; [reflexivity|]. symmetry. lia.
Qed.

(** ** The lists of the trails are shared *)

Definition wired (s e : option (list nat)) (d : nat) (L : level) : Prop :=
  l_depth L = d /\ (l_start_trail L = None \/ l_start_trail L = s) /\ (l_end_trail L = None \/ l_end_trail L = e).
Fixpoint wires (s e : option (list nat)) (l : list level) : Prop := match l with [] => True | L :: below => wired s e (List.length below) L /\ wires s e below end.
Definition wired_range (s e : option (list nat)) (r : range) : Prop := r_start_trail r = s /\ r_end_trail r = e /\ wires s e (r_top r :: r_below r).

Lemma wired_index s e d L i : wired s e d L -> wired s e d (set_index L i).
Proof. intros H. exact H. Qed.
Lemma wired_child s e d L i L' : wired s e d L -> level_child L i = Ok L' -> wired s e (S d) L'.
Proof.
  intros (D & S1 & E1) H. unfold level_child in H. destruct (item_at (l_node L) i); [|discriminate]. cbn [bindr] in H. unfold new_level in H. cbn zeta in H.
  match type of H with (let! _ := ?x in _) = _ => destruct x; [|discriminate] end. cbn [bindr] in H. injection H as <-. unfold wired. cbn [l_depth l_start_trail l_end_trail]. split; [now rewrite D|]. split.
  - destruct (truthy (l_start_trail L)) as [l|] eqn:T; [|now left]. destruct (_ && _); [|now left]. right. apply truthy_some in T as [T _]. destruct S1 as [S1|S1]; congruence.
  - destruct (l_end_trail L) as [l|]; [|now left]. destruct (_ =? _)%Z; [|now left]. right. destruct E1 as [E1|E1]; congruence.
Qed.

Lemma wires_new t s e r : new_range t s e = Ok r -> wired_range s e r.
Proof.
  unfold new_range, new_level. match goal with |- (bindr (bindr ?x _) _) = _ -> _ => destruct x; cbn [bindr]; [|intros X; discriminate X] end.
  intros X. injection X as <-. split; [reflexivity|]. split; [reflexivity|]. cbn [r_top r_below wires List.length]. split; [split; [reflexivity|split; now right]|exact Logic.I].
Qed.
Lemma wires_step s e rv r n r' : wired_range s e r -> step rv r = Ok (Some (n, r')) -> wired_range s e r'.
Proof.
  destruct r as [st et L below]. intros (A & B & W & WB) H. cbn [r_top r_below r_start_trail r_end_trail wires] in *. unfold step in H. cbn [r_top] in H.
  assert (X : exists L1, r' = Range st et L1 below /\ exists i, L1 = set_index L i).
  { destruct rv; unfold level_prev, level_next in H; destruct (_ <? _)%Z in H; cbn [bindr] in H; try discriminate; destruct (item_at _ _) in H; cbn [bindr] in H; try discriminate; injection H as <- <-; eexists; split; [reflexivity|eauto|reflexivity|eauto]. }
  destruct X as (L1 & -> & i & ->). split; [exact A|]. split; [exact B|]. split; [exact W|exact WB].
Qed.
Lemma wires_enter s e r r' : wired_range s e r -> enter r = Ok r' -> wired_range s e r'.
Proof.
  intros W H. unfold enter in H. destruct (l_index (r_top r) =? -1)%Z; [congruence|]. destruct (level_child (r_top r) (l_index (r_top r))) as [L'|] eqn:C; [|discriminate]. cbn [bindr] in H. injection H as <-.
  destruct W as (A & B & W & WB). split; [exact A|]. split; [exact B|]. cbn [r_top r_below wires List.length]. split; [|split; assumption]. eapply wired_child; eauto.
Qed.
Lemma wires_leave s e r : wired_range s e r -> wired_range s e (snd (leave r)).
Proof.
  intros (A & B & W & WB). unfold leave. destruct (r_below r) as [|b below] eqn:Q; cbn [snd]; (split; [exact A|]; split; [exact B|]); cbn [with_top r_top r_below wires]; [rewrite Q; split; [exact W|exact Logic.I]|exact WB].
Qed.
Lemma wires_last s e L : forall below, wires s e (L :: below) -> wired s e 0 (List.last below L).
Proof. intros below. revert L. induction below as [|b below IH]; intros L [W WB]; [exact W|]. specialize (IH b WB). cbn [List.last]. destruct below; [exact IH|]. 
  assert (X : forall l d d' (x : level), List.last (x :: l) d = List.last (x :: l) d') by (induction l0 as [|y l0 IHl]; intros d d' x; [reflexivity|]; cbn [List.last] in *; apply IHl).
  now rewrite (X below L b l). Qed.
Lemma wires_reset s e r : wired_range s e r -> wired_range s e (reset r).
Proof. intros (A & B & W). split; [exact A|]. split; [exact B|]. cbn [reset r_top r_below wires]. split; [|exact Logic.I]. apply wired_index. apply (wires_last s e (r_top r) (r_below r) W). Qed.
Lemma wires_down s e : forall p r r', wired_range s e r -> go_down r p = Ok r' -> wired_range s e r'.
Proof.
  induction p as [|i p IH]; intros r r' W H; cbn [go_down] in H; [congruence|]. assert (W1 : wired_range s e (with_top r (set_index (r_top r) (Z.of_nat i)))) by (destruct W as (A & B & W & WB); repeat split; auto; apply W).
  destruct p as [|j p]; [injection H as <-; exact W1|]. destruct (level_child (r_top (with_top r (set_index (r_top r) (Z.of_nat i)))) _) as [L'|] eqn:C; [|discriminate]. cbn [bindr] in H. eapply IH; [|exact H].
  destruct W1 as (A & B & W1 & WB). split; [exact A|]. split; [exact B|]. cbn [r_top r_below wires List.length]. split; [eapply wired_child; eauto|]. split; assumption.
Qed.
Lemma wires_index s e r i r' : wired_range s e r -> set_range_index r i = Ok r' -> wired_range s e r'.
Proof. unfold set_range_index. intros W H. destruct (_ || _); [discriminate|]. injection H as <-. destruct W as (A & B & W & WB). repeat split; auto; apply W. Qed.

(** ** Replacing the current node *)

Definition put_child (n : tree) (i : nat) (v : tree) : tree := set_children n (splice (children n) i (S i) [v]).

Lemma splice_nth {A} (l : list A) i x v : nth_error l i = Some x -> exists a b, l = a ++ x :: b /\ List.length a = i /\ splice l i (S i) [v] = a ++ v :: b.
Proof.
  intros E. destruct (nth_error_split l i E) as (a & b & -> & <-). exists a, b. split; [reflexivity|]. split; [reflexivity|]. unfold splice. rewrite firstn_app, firstn_all, Nat.sub_diag. cbn [firstn]. rewrite app_nil_r. f_equal. cbn [app]. f_equal.
  rewrite skipn_app. replace (S (List.length a) - List.length a) with 1 by lia. rewrite skipn_all2 by lia. reflexivity.
Qed.
Lemma put_length n i x v : nth_error (children n) i = Some x -> List.length (children (put_child n i v)) = List.length (children n).
Proof. intros E. destruct n as [k ts]. cbn [put_child set_children children] in *. destruct (splice_nth ts i x v E) as (a & b & -> & _ & ->). rewrite !app_length. reflexivity. Qed.
Lemma put_nth n i x v : nth_error (children n) i = Some x -> nth_error (children (put_child n i v)) i = Some v.
Proof. intros E. destruct n as [k ts]. cbn [put_child set_children children] in *. destruct (splice_nth ts i x v E) as (a & b & -> & <- & ->). now rewrite nth_error_app2, Nat.sub_diag. Qed.
Lemma put_other n i x v j : nth_error (children n) i = Some x -> j <> i -> nth_error (children (put_child n i v)) j = nth_error (children n) j.
Proof.
  intros E N. destruct n as [k ts]. cbn [put_child set_children children] in *. destruct (splice_nth ts i x v E) as (a & b & -> & <- & ->). destruct (Nat.lt_ge_cases j (List.length a)); [rewrite !nth_error_app1 by lia; reflexivity|].
  rewrite !nth_error_app2 by lia. destruct (j - List.length a) as [|m] eqn:Q; [lia|reflexivity].
Qed.

Lemma inners_app_some q x : inners (Some (q ++ x)) q = Some x.
Proof. induction q as [|i q IH]; [reflexivity|]. cbn [app inners inner]. now rewrite Nat.eqb_refl. Qed.
Lemma inners_none q : inners None q = None.
Proof. induction q as [|i q IH]; [reflexivity|]. cbn [inners inner]. exact IH. Qed.
Lemma inners_other s q : (forall x, s <> q ++ x) -> inners (Some s) q = None.
Proof.
  revert s. induction q as [|i q IH]; intros s H; [elim (H s); reflexivity|]. cbn [inners]. destruct s as [|j s]; cbn [inner]; [apply inners_none|]. destruct (Nat.eqb_spec i j) as [->|N]; [|apply inners_none].
  apply IH. intros x ->. now apply (H x).
Qed.
Lemma inners_some s q x : inners s q = Some x -> q = [] /\ s = Some x \/ s = Some (q ++ x).
Proof.
  destruct s as [s|]; [|rewrite inners_none; discriminate]. intros H. right. f_equal.
  assert (D : (exists y, s = q ++ y) \/ forall y, s <> q ++ y).
  { clear. revert s. induction q as [|i q IH]; intros s; [left; now exists s|]. destruct s as [|j s]; [right; discriminate|]. destruct (Nat.eq_dec i j) as [->|N]; [|right; intros y [= <- _]; congruence].
    destruct (IH s) as [[y ->]|H]; [left; now exists y|right; intros y [= ->]; now apply (H y)]. }
  destruct D as [[y ->]|D]; [rewrite inners_app_some in H; congruence|]. rewrite inners_other in H by exact D. discriminate.
Qed.

(** The boundary is the same, or was inside the node at [p] and still is. *)
Definition moved (p : list nat) (s s2 : option (list nat)) : Prop := s2 = s \/ exists x y, s = Some (p ++ x) /\ s2 = Some (p ++ y).

Lemma moved_up q i s s2 : moved (q ++ [i]) s s2 -> moved q s s2.
Proof. intros [->|(x & y & -> & ->)]; [now left|right]. exists (i :: x), (i :: y). now rewrite <- !app_assoc. Qed.
Lemma moved_lo q i s s2 : moved (q ++ [i]) s s2 -> lo (inners s2 q) = lo (inners s q).
Proof. intros [->|(x & y & -> & ->)]; [reflexivity|]. rewrite <- !app_assoc, !inners_app_some. reflexivity. Qed.
Lemma moved_hi q i s s2 len : moved (q ++ [i]) s s2 -> hi (inners s2 q) len = hi (inners s q) len.
Proof. intros [->|(x & y & -> & ->)]; [reflexivity|]. rewrite <- !app_assoc, !inners_app_some. reflexivity. Qed.

Lemma valid_put n i x v q s s2 : nth_error (children n) i = Some x -> moved (q ++ [i]) s s2 -> valid n (inners s q) -> valid v (inners s2 (q ++ [i])) -> valid (put_child n i v) (inners s2 q).
Proof.
  intros E M V1 V2. rewrite inners_snoc in V2. destruct (inners s2 q) as [[|j y]|] eqn:Q; [exists (put_child n i v); constructor| |exact Logic.I]. cbn [inner valid] in *. destruct (Nat.eqb_spec i j) as [<-|N].
  - pose proof (put_nth n i x v E) as P. destruct (put_child n i v) as [k ts]. apply exists_cons. exists v. split; [exact P|exact V2].
  - assert (S : inners s q = Some (j :: y)). { destruct M as [->|(a & b & -> & ->)]; [exact Q|]. rewrite <- app_assoc, inners_app_some in Q. cbn [app] in Q. injection Q as -> _. congruence. }
    rewrite S in V1. cbn [valid] in V1. pose proof (put_other n i x v j E ltac:(congruence)) as P. destruct (put_child n i v) as [k ts], n as [k' ts']. cbn [children] in P. apply exists_cons in V1 as (c & C & V1). apply exists_cons. exists c. split; [now rewrite P|exact V1].
Qed.

(** A level after the change. *)
Definition new_level_at (L : level) (i : nat) (v : tree) (st et : option (list nat)) : level :=
  Level (put_child (l_node L) i v) (l_depth L) st et (l_start L) (l_end L) (l_index L).

Lemma good_put L s e s2 e2 q i x v st et : good L (inners s q) (inners e q) -> wired s e (List.length q) L -> nth_error (children (l_node L)) i = Some x ->
  moved (q ++ [i]) s s2 -> moved (q ++ [i]) e e2 -> valid v (inners s2 (q ++ [i])) -> valid v (inners e2 (q ++ [i])) ->
  st = (match l_start_trail L with Some _ => s2 | None => None end) -> et = (match l_end_trail L with Some _ => e2 | None => None end) ->
  good (new_level_at L i v st et) (inners s2 q) (inners e2 q) /\ wired s2 e2 (List.length q) (new_level_at L i v st et).
Proof.
  intros G (D & WS & WE) E MS ME VS VE -> ->. split.
  - split; cbn [new_level_at l_node l_depth l_start_trail l_end_trail l_start l_end l_index].
    + pose proof (g_start _ _ _ G) as K. unfold keeps_start in *. cbn [new_level_at l_start_trail l_depth]. rewrite D in *. destruct MS as [->|(a & b & -> & ->)].
      * destruct WS as [W|W]; rewrite W in *; [exact K|]. destruct s; exact K.
      * rewrite <- app_assoc, inners_app_some in *. cbn [app] in *. destruct WS as [W|W]; rewrite W in *; cbn [truthy] in K; [destruct K; discriminate|].
        assert (T : forall l : list nat, truthy (Some (q ++ i :: l)) = Some (q ++ i :: l)) by (intros l; destruct q; reflexivity). rewrite T. split; [|rewrite app_length; cbn [List.length]; lia]. f_equal. rewrite skipn_app, skipn_all, Nat.sub_diag. reflexivity.
    + pose proof (g_end _ _ _ G) as K. unfold keeps_end in *. cbn [new_level_at l_end_trail l_depth]. rewrite D in *. destruct ME as [->|(a & b & -> & ->)].
      * destruct WE as [W|W]; rewrite W in *; [exact K|]. destruct e; exact K.
      * rewrite <- app_assoc, inners_app_some in *. cbn [app] in *. destruct WE as [W|W]; rewrite W in *; cbn [option_map] in K; [discriminate|]. cbn [option_map]. f_equal. rewrite skipn_app, skipn_all, Nat.sub_diag. reflexivity.
    + rewrite (moved_lo q i s s2 MS). apply (g_lo _ _ _ G).
    + rewrite (put_length _ i x v E), (moved_hi q i e e2 _ ME). apply (g_hi _ _ _ G).
    + apply (g_index _ _ _ G).
    + eapply valid_put; eauto. apply (g_vs _ _ _ G).
    + eapply valid_put; eauto. apply (g_ve _ _ _ G).
  - split; [exact D|]. cbn [new_level_at l_start_trail l_end_trail]. split; [destruct (l_start_trail L); auto|destruct (l_end_trail L); auto].
Qed.

Lemma within_put q i s s2 e e2 len : moved (q ++ [i]) s s2 -> moved (q ++ [i]) e e2 -> forall j, within (inners s2 q) (inners e2 q) len j = within (inners s q) (inners e q) len j.
Proof. intros MS ME j. unfold within. now rewrite (moved_lo q i s s2 MS), (moved_hi q i e e2 len ME). Qed.

(** What a list of a trail becomes in the levels under the one that is changed. *)
Lemma shared_is changed own s s2 : (own = None \/ own = s) -> (changed = None /\ s2 = s \/ changed = s2 /\ s2 <> None) -> shared changed own = match own with Some _ => s2 | None => None end.
Proof. intros O C. unfold shared. destruct C as [[-> ->]|[-> N]]; destruct own as [o|]; [destruct O; congruence|reflexivity|destruct s2; [reflexivity|congruence]|destruct s2; reflexivity]. Qed.

Lemma replaced_snoc i v t q n : reach t q n -> forall t2 c, nth_error (children n) i = Some c -> replaced (put_child n i v) t q t2 -> replaced v t (q ++ [i]) t2.
Proof.
  intros R. induction R as [t|k ts j d q t E R IH]; intros t2 c C RP; cbn [app].
  - inversion RP; subst. destruct t as [k ts]. cbn [children put_child set_children] in *. destruct (splice_nth ts i c v C) as (a & b & -> & <- & ->). constructor. constructor.
  - inversion RP as [|k' l c0 r p c' RP']; subst. rewrite nth_error_app2, Nat.sub_diag in E by lia. injection E as ->. constructor. eapply IH; eauto.
Qed.

Lemma rebuild_inside t s e : valid t s -> valid t e -> forall q n s' e' below, inside_at t s e q n s' e' below -> wires s e below ->
  forall v s2 e2 st et, moved q s s2 -> moved q e e2 -> valid v (inners s2 q) -> valid v (inners e2 q) ->
  (st = None /\ s2 = s \/ st = s2 /\ s2 <> None) -> (et = None /\ e2 = e \/ et = e2 /\ e2 <> None) ->
  exists t2, replaced v t q t2 /\ valid t2 s2 /\ valid t2 e2 /\ inside_at t2 s2 e2 q v (inners s2 q) (inners e2 q) (rebuild v st et below) /\ wires s2 e2 (rebuild v st et below) /\ List.length (rebuild v st et below) = List.length below.
Proof.
  intros VS VE q n s' e' below IN. induction IN as [|q n s' e' below L i c IN IH G N IX C W]; intros WR v s2 e2 st et MS ME V1 V2 HS HE.
  - exists v. cbn [rebuild wires]. split; [constructor|]. split; [exact V1|]. split; [exact V2|]. split; [constructor|]. auto.
  - destruct (inside_facts t s e q n s' e' below VS VE IN) as (R & S1 & E1 & RE & _ & _ & LN & _). destruct WR as [WL WR]. cbn [rebuild]. rewrite IX, Nat2Z.id. fold (put_child (l_node L) i v).
    rewrite LN in WL. rewrite S1, E1 in *. subst n. destruct WL as (D & WS & WE).
    destruct (good_put L s e s2 e2 q i c v (shared st (l_start_trail L)) (shared et (l_end_trail L)) G ltac:(split; auto) C MS ME V1 V2 (shared_is _ _ s s2 WS HS) (shared_is _ _ e e2 WE HE)) as [G2 W2].
    unfold new_level_at in G2, W2. rewrite IX in G2, W2. destruct (IH WR (put_child (l_node L) i v) s2 e2 st et (moved_up _ _ _ _ MS) (moved_up _ _ _ _ ME) (g_vs _ _ _ G2) (g_ve _ _ _ G2) HS HE) as (t2 & RP & VT1 & VT2 & IN2 & WR2 & LN2).
    exists t2. split; [|split; [exact VT1|split; [exact VT2|split; [|split; [|cbn [List.length]; now rewrite LN2]]]]].
    + eapply replaced_snoc; eauto.
    + rewrite !inners_snoc. econstructor; [exact IN2|exact G2|reflexivity|exact eq_refl|eapply put_nth; eauto|]. rewrite (put_length _ i c v C), (within_put q i s s2 e e2 _ MS ME). exact W.
    + cbn [wires]. split; [|exact WR2]. rewrite LN2, LN. exact W2.
Qed.

Lemma app_same {A} (l l' : list A) c c' r r' : l' ++ c' :: r' = l ++ c :: r -> List.length l' = List.length l -> l' = l /\ c' = c /\ r' = r.
Proof.
  revert l'. induction l as [|x l IH]; intros [|y l'] EQ EL; cbn in *; try lia; [injection EQ as -> ->; auto|]. injection EQ as -> EQ. injection EL as EL. destruct (IH l' EQ EL) as (-> & -> & ->). auto.
Qed.
Lemma replaced_fun v : forall t p a b, replaced v t p a -> replaced v t p b -> a = b.
Proof.
  intros t p a b H. revert b. induction H as [t|n l c r p c' H IH]; intros b HB; [inversion HB; subst; reflexivity|]. 
  remember (T n (l ++ c :: r)) as t0 eqn:E0. remember (List.length l :: p) as p0 eqn:P0. destruct HB as [|n' l' c0 r' p' c0' HB]; [discriminate|]. injection E0 as -> EQ. injection P0 as EL ->.
  destruct (app_same _ _ _ _ _ _ EQ EL) as (-> & -> & ->). now rewrite (IH _ HB).
Qed.
Lemma prefix_dec (q s : list nat) : (exists y, s = q ++ y) \/ forall y, s <> q ++ y.
Proof.
  revert s. induction q as [|i q IH]; intros s; [left; now exists s|]. destruct s as [|j s]; [right; discriminate|]. destruct (Nat.eq_dec i j) as [->|N]; [|right; intros y [= <- _]; congruence].
  destruct (IH s) as [[y ->]|H]; [left; now exists y|right; intros y [= ->]; now apply (H y)].
Qed.
Lemma retracted_fun p s a b : retracted p s a -> retracted p s b -> a = b.
Proof.
  intros [A1 A2] [B1 B2]. destruct s as [s|]; [|rewrite A2, B2 by discriminate; reflexivity]. destruct (prefix_dec p s) as [[y ->]|N]; [rewrite (A1 y), (B1 y) by reflexivity; reflexivity|]. rewrite A2, B2; [reflexivity| |]; intros x [= X]; now apply (N x).
Qed.

Lemma set_item_gen t s e q n s' e' below L i v p b : valid t s -> valid t e -> inside_at t s e q n s' e' below -> good L s' e' -> l_node L = n -> i < List.length (children n) -> placed q n s' e' L p b -> wires s e (L :: below) ->
  exists l t2 s2 e2, set_level_item L (Z.of_nat i) v = Ok l /\ replaced v t (q ++ [i]) t2 /\ retracted (q ++ [i]) s s2 /\ retracted (q ++ [i]) e e2 /\ valid t2 s2 /\ valid t2 e2 /\
    shared (l_start_trail l) s = s2 /\ shared (l_end_trail l) e = e2 /\
    cur t2 s2 e2 p b (Range s2 e2 l (rebuild (l_node l) (l_start_trail l) (l_end_trail l) below)) /\ wires s2 e2 (l :: rebuild (l_node l) (l_start_trail l) (l_end_trail l) below).
Proof.
  intros VS VE IN G N I P [WL WR]. destruct (inside_facts t s e q n s' e' below VS VE IN) as (R & S1 & E1 & RE & V1 & V2 & LN & _). rewrite LN in WL. destruct WL as (D & WS & WE).
  destruct (nth_error (children n) i) as [c|] eqn:C; [|apply nth_error_None in C; lia].
  (* the new boundaries *)
  assert (HS : exists s2, retracted (q ++ [i]) s s2 /\ moved (q ++ [i]) s s2 /\ valid v (inners s2 (q ++ [i])) /\
    (let st := if deep (l_start_trail L) (l_depth L) && (Z.of_nat i =? l_start L)%Z then option_map (firstn (S (l_depth L))) (l_start_trail L) else l_start_trail L in
     (st = None /\ s2 = s \/ st = s2 /\ s2 <> None) /\ st = match l_start_trail L with Some _ => s2 | None => None end)).
  { pose proof (g_start _ _ _ G) as K. unfold keeps_start in K. rewrite D in *. rewrite (g_lo _ _ _ G). rewrite S1 in *. cbn zeta. 
    assert (DEC : (exists y, s = Some ((q ++ [i]) ++ y)) \/ forall y, s <> Some ((q ++ [i]) ++ y)).
    { destruct s as [s0|]; [|right; discriminate]. destruct (prefix_dec (q ++ [i]) s0) as [[y ->]|H]; [left; eauto|right; intros y [= X]; now apply (H y)]. }
    destruct DEC as [[y EY]|NO].
    - exists (Some (q ++ [i])). split; [split; [reflexivity|intros X; now elim (X y)]|]. split; [right; exists y, []; split; [exact EY|now rewrite app_nil_r]|]. split.
      { replace (inners (Some (q ++ [i])) (q ++ [i])) with (Some (@nil nat)); [exists v; constructor|]. symmetry. pose proof (inners_app_some (q ++ [i]) []) as X. now rewrite app_nil_r in X. }
      rewrite EY in K. rewrite <- app_assoc, inners_app_some in K. cbn [app] in K.
      assert (OWN : l_start_trail L = Some ((q ++ [i]) ++ y)) by (destruct WS as [WS|WS]; [rewrite WS in K; cbn [truthy] in K; destruct K; discriminate|congruence]).
      rewrite OWN, EY. replace (lo (inners (Some ((q ++ [i]) ++ y)) q)) with i by (rewrite <- app_assoc, inners_app_some; reflexivity). rewrite Z.eqb_refl. cbn [deep]. replace (List.length q <? List.length ((q ++ [i]) ++ y)) with true by (symmetry; apply Nat.ltb_lt; rewrite !app_length; cbn; lia). cbn [andb option_map].
      assert (F : firstn (S (List.length q)) ((q ++ [i]) ++ y) = q ++ [i]) by (rewrite firstn_app; replace (S (List.length q)) with (List.length (q ++ [i])) by (rewrite app_length; cbn; lia); rewrite firstn_all, Nat.sub_diag; cbn [firstn]; now rewrite app_nil_r).
      rewrite F. split; [right; split; [reflexivity|discriminate]|reflexivity].
    - exists s. split; [split; [intros x X; now elim (NO x)|reflexivity]|]. split; [now left|]. split.
      { destruct s as [s0|]; [|rewrite inners_none; exact Logic.I]. rewrite inners_other; [exact Logic.I|]. intros x ->. now apply (NO x). }
      assert (NC : deep (l_start_trail L) (List.length q) && (Z.of_nat i =? Z.of_nat (lo (inners s q)))%Z = false).
      { destruct (deep (l_start_trail L) (List.length q)) eqn:DP; [|reflexivity]. cbn [andb]. destruct WS as [WS|WS]; rewrite WS in DP; [discriminate|]. destruct s as [s0|]; [|discriminate]. cbn [deep] in DP. rewrite WS in K.
        assert (T : truthy (Some s0) = Some s0) by (destruct s0; [discriminate|reflexivity]). rewrite T in K. destruct K as [K _]. assert (K' := K). apply inners_some in K' as [[-> EQ]|EQ].
        - rewrite K. destruct (skipn (List.length (@nil nat)) s0) as [|j y] eqn:SK; [cbn in SK; subst s0; discriminate|]. cbn [lo]. destruct (Nat.eq_dec i j) as [->|NJ]; [|lia]. elim (NO y). cbn in SK. now subst s0.
        - rewrite K. injection EQ as EQ. destruct (skipn (List.length q) s0) as [|j y] eqn:SK; [rewrite app_nil_r in EQ; subst s0; rewrite Nat.ltb_irrefl in DP; discriminate|]. cbn [lo]. destruct (Nat.eq_dec i j) as [->|NJ]; [|lia]. elim (NO y). f_equal. rewrite <- app_assoc. exact EQ. }
      rewrite NC. destruct WS as [WS|WS]; rewrite WS; [split; [now left|reflexivity]|]. split; [destruct s; [right; split; [reflexivity|discriminate]|now left]|now destruct s]. }
  assert (HE : exists e2, retracted (q ++ [i]) e e2 /\ moved (q ++ [i]) e e2 /\ valid v (inners e2 (q ++ [i])) /\
    (let et := if deep (l_end_trail L) (l_depth L) && (Z.of_nat i =? l_end L)%Z then option_map (firstn (S (l_depth L))) (l_end_trail L) else l_end_trail L in
     (et = None /\ e2 = e \/ et = e2 /\ e2 <> None) /\ et = match l_end_trail L with Some _ => e2 | None => None end)).
  { pose proof (g_end _ _ _ G) as K. unfold keeps_end in K. rewrite D in *. rewrite (g_hi _ _ _ G). rewrite E1 in *. cbn zeta.
    assert (DEC : (exists y, e = Some ((q ++ [i]) ++ y)) \/ forall y, e <> Some ((q ++ [i]) ++ y)).
    { destruct e as [e0|]; [|right; discriminate]. destruct (prefix_dec (q ++ [i]) e0) as [[y ->]|H]; [left; eauto|right; intros y [= X]; now apply (H y)]. }
    destruct DEC as [[y EY]|NO].
    - exists (Some (q ++ [i])). split; [split; [reflexivity|intros X; now elim (X y)]|]. split; [right; exists y, []; split; [exact EY|now rewrite app_nil_r]|]. split.
      { replace (inners (Some (q ++ [i])) (q ++ [i])) with (Some (@nil nat)); [exists v; constructor|]. symmetry. pose proof (inners_app_some (q ++ [i]) []) as X. now rewrite app_nil_r in X. }
      rewrite EY in K. rewrite <- app_assoc, inners_app_some in K. cbn [app] in K.
      assert (OWN : l_end_trail L = Some ((q ++ [i]) ++ y)) by (destruct WE as [WE|WE]; [rewrite WE in K; discriminate|congruence]).
      rewrite OWN, EY. replace (hi (inners (Some ((q ++ [i]) ++ y)) q) (List.length (children (l_node L)))) with (Z.of_nat i) by (rewrite <- app_assoc, inners_app_some; reflexivity). rewrite Z.eqb_refl. cbn [deep]. replace (List.length q <? List.length ((q ++ [i]) ++ y)) with true by (symmetry; apply Nat.ltb_lt; rewrite !app_length; cbn; lia). cbn [andb option_map].
      assert (F : firstn (S (List.length q)) ((q ++ [i]) ++ y) = q ++ [i]) by (rewrite firstn_app; replace (S (List.length q)) with (List.length (q ++ [i])) by (rewrite app_length; cbn; lia); rewrite firstn_all, Nat.sub_diag; cbn [firstn]; now rewrite app_nil_r).
      rewrite F. split; [right; split; [reflexivity|discriminate]|reflexivity].
    - exists e. split; [split; [intros x X; now elim (NO x)|reflexivity]|]. split; [now left|]. split.
      { destruct e as [e0|]; [|rewrite inners_none; exact Logic.I]. rewrite inners_other; [exact Logic.I|]. intros x ->. now apply (NO x). }
      assert (NC : deep (l_end_trail L) (List.length q) && (Z.of_nat i =? hi (inners e q) (List.length (children (l_node L))))%Z = false).
      { destruct (deep (l_end_trail L) (List.length q)) eqn:DP; [|reflexivity]. cbn [andb]. destruct WE as [WE|WE]; rewrite WE in DP; [discriminate|]. destruct e as [e0|]; [|discriminate]. cbn [deep] in DP. rewrite WE in K. cbn [option_map] in K.
        assert (K' := K). apply inners_some in K' as [[-> EQ]|EQ].
        - rewrite K. destruct (skipn (List.length (@nil nat)) e0) as [|j y] eqn:SK; [cbn in SK; subst e0; discriminate|]. cbn [hi]. destruct (Nat.eq_dec i j) as [->|NJ]; [|lia]. elim (NO y). cbn in SK. now subst e0.
        - rewrite K. injection EQ as EQ. destruct (skipn (List.length q) e0) as [|j y] eqn:SK; [rewrite app_nil_r in EQ; subst e0; rewrite Nat.ltb_irrefl in DP; discriminate|]. cbn [hi]. destruct (Nat.eq_dec i j) as [->|NJ]; [|lia]. elim (NO y). f_equal. rewrite <- app_assoc. exact EQ. }
      rewrite NC. destruct WE as [WE|WE]; rewrite WE; [split; [now left|reflexivity]|]. split; [destruct e; [right; split; [reflexivity|discriminate]|now left]|now destruct e]. }
  destruct HS as (s2 & RS & MS & VS2 & HS & ES). destruct HE as (e2 & REE & ME & VE2 & HE & EE). cbn zeta in *.
  set (st := if deep (l_start_trail L) (l_depth L) && (Z.of_nat i =? l_start L)%Z then option_map (firstn (S (l_depth L))) (l_start_trail L) else l_start_trail L) in *.
  set (et := if deep (l_end_trail L) (l_depth L) && (Z.of_nat i =? l_end L)%Z then option_map (firstn (S (l_depth L))) (l_end_trail L) else l_end_trail L) in *.
  subst n. rewrite S1, E1 in *. destruct (good_put L s e s2 e2 q i c v st et G ltac:(split; auto) C MS ME VS2 VE2 ES EE) as [G2 W2].
  destruct (rebuild_inside t s e VS VE q _ _ _ below IN WR (put_child (l_node L) i v) s2 e2 st et (moved_up _ _ _ _ MS) (moved_up _ _ _ _ ME) (g_vs _ _ _ G2) (g_ve _ _ _ G2) HS HE) as (t2 & RP & VT1 & VT2 & IN2 & WR2 & LN2).
  exists (new_level_at L i v st et), t2, s2, e2. split.
  { unfold set_level_item. unfold position. replace (Z.of_nat i <? 0)%Z with false by lia. replace ((0 <=? Z.of_nat i) && (Z.of_nat i <? Z.of_nat (List.length (children (l_node L)))))%Z with true by lia. rewrite Nat2Z.id. unfold new_level_at, put_child, st, et. reflexivity. }
  split.
  { eapply replaced_snoc; eauto. }
  split; [exact RS|]. split; [exact REE|]. split; [exact VT1|]. split; [exact VT2|]. cbn [new_level_at l_start_trail l_end_trail l_node].
  split; [rewrite (shared_is st s s s2 (or_intror eq_refl) HS); destruct s; [reflexivity|]; destruct MS as [->|(x & y & ? & _)]; [reflexivity|discriminate]|].
  split; [rewrite (shared_is et e e e2 (or_intror eq_refl) HE); destruct e; [reflexivity|]; destruct ME as [->|(x & y & ? & _)]; [reflexivity|discriminate]|]. split.
  - exists q, (put_child (l_node L) i v), (inners s2 q), (inners e2 q), (new_level_at L i v st et), (rebuild (put_child (l_node L) i v) st et below). split; [reflexivity|]. split; [exact IN2|]. split; [exact G2|]. split; [reflexivity|].
    unfold placed in *. cbn [new_level_at l_index]. destruct b; [exact P|]. destruct P as (j & -> & IX & W). exists j. split; [reflexivity|]. split; [exact IX|]. rewrite (put_length _ i c v C), (within_put q i s s2 e e2 _ MS ME). exact W.
  - cbn [wires]. split; [|exact WR2]. rewrite LN2, LN. exact W2.
Qed.

Lemma set_item_ok t s e q n s' e' below L i v : valid t s -> valid t e -> inside_at t s e q n s' e' below -> good L s' e' -> l_node L = n -> l_index L = Z.of_nat i -> within s' e' (List.length (children n)) i = true -> wires s e (L :: below) ->
  exists l t2 s2 e2, set_level_item L (l_index L) v = Ok l /\ replaced v t (q ++ [i]) t2 /\ retracted (q ++ [i]) s s2 /\ retracted (q ++ [i]) e e2 /\ valid t2 s2 /\ valid t2 e2 /\
    shared (l_start_trail l) s = s2 /\ shared (l_end_trail l) e = e2 /\
    cur t2 s2 e2 (q ++ [i]) false (Range s2 e2 l (rebuild (l_node l) (l_start_trail l) (l_end_trail l) below)) /\ wires s2 e2 (l :: rebuild (l_node l) (l_start_trail l) (l_end_trail l) below).
Proof.
  intros VS VE IN G N IX W WR. rewrite IX. destruct (inside_facts t s e q n s' e' below VS VE IN) as (_ & _ & _ & _ & _ & V2 & _). apply (set_item_gen t s e q n s' e' below L i v (q ++ [i]) false); auto.
  - destruct n as [k ts]; pose proof (valid_hi k ts e' V2); unfold within in W; cbn [children] in *; lia.
  - exists i. auto.
Qed.

Lemma cur_set_node t s e p b r v : valid t s -> valid t e -> cur t s e p b r -> wired_range s e r ->
  (p = [] -> set_range_node r v = Err ValueError) /\
  (p <> [] -> exists r' t2 s2 e2, set_range_node r v = Ok r' /\ replaced v t p t2 /\ retracted p s s2 /\ retracted p e e2 /\ valid t2 s2 /\ valid t2 e2 /\ cur t2 s2 e2 p false r' /\ wired_range s2 e2 r').
Proof.
  intros VS VE C (_ & _ & WR). assert (C0 := C). destruct C0 as (q & n & s' & e' & L & below & -> & IN & G & N & P). cbn [r_top r_below r_start_trail r_end_trail] in *. unfold set_range_node. cbn [r_top r_below r_start_trail r_end_trail]. destruct b.
  - destruct P as [-> IX]. rewrite IX. cbn [Z.eqb Pos.eqb]. inversion IN as [Q|q0 n0 s0 e0 below0 L0 i c IN0 G0 N0 IX0 C0 W0 Q]; subst; cbn [bindr]; [split; [reflexivity|congruence]|]. split; [intros X; destruct q0; discriminate|intros _].
    destruct WR as [_ WR]. destruct (set_item_ok t s e q0 (l_node L0) s0 e0 below0 L0 i v VS VE IN0 G0 eq_refl IX0 W0 WR) as (l & t2 & s2 & e2 & X & RP & RS & RE & V1 & V2 & E1 & E2 & C2 & W2).
    rewrite X. cbn [bindr]. rewrite E1, E2. eexists. exists t2, s2, e2. split; [reflexivity|]. repeat (split; [assumption|]). split; [reflexivity|]. split; [reflexivity|]. exact W2.
  - destruct P as (i & -> & IX & W). split; [intros X; destruct q; discriminate|intros _]. replace (l_index L =? -1)%Z with false by lia. cbn [bindr].
    destruct (set_item_ok t s e q n s' e' below L i v VS VE IN G N IX W WR) as (l & t2 & s2 & e2 & X & RP & RS & RE & V1 & V2 & E1 & E2 & C2 & W2).
    rewrite X. cbn [bindr]. rewrite E1, E2. eexists. exists t2, s2, e2. split; [reflexivity|]. repeat (split; [assumption|]). split; [reflexivity|]. split; [reflexivity|]. exact W2.
Qed.

Lemma cur_set_item t s e p b r i v n : valid t s -> valid t e -> cur t s e p b r -> wired_range s e r -> reach t (level_path p b) n ->
  (List.length (children n) <= i -> set_range_item r (Z.of_nat i) v = Err IndexError) /\
  (i < List.length (children n) -> exists r' t2 s2 e2, set_range_item r (Z.of_nat i) v = Ok r' /\ replaced v t (level_path p b ++ [i]) t2 /\ retracted (level_path p b ++ [i]) s s2 /\ retracted (level_path p b ++ [i]) e e2 /\
     valid t2 s2 /\ valid t2 e2 /\ cur t2 s2 e2 p b r' /\ wired_range s2 e2 r').
Proof.
  intros VS VE C (_ & _ & WR) R. destruct C as (q & n' & s' & e' & L & below & -> & IN & G & N & P). cbn [r_top r_below] in WR. unfold set_range_item. cbn [r_top r_below r_start_trail r_end_trail].
  assert (LP : level_path p b = q) by (unfold level_path; destruct b; [destruct P as [-> _]; reflexivity|destruct P as (k & -> & _); now rewrite removelast_last]). rewrite LP in *.
  destruct (inside_facts t s e q n' s' e' below VS VE IN) as (R2 & _). rewrite (reach_fun t q n n' R R2) in *. split.
  - intros I. unfold set_level_item, position. rewrite N. replace (Z.of_nat i <? 0)%Z with false by lia. replace ((0 <=? Z.of_nat i) && (Z.of_nat i <? Z.of_nat (List.length (children n'))))%Z with false by lia. reflexivity.
  - intros I. destruct (set_item_gen t s e q n' s' e' below L i v p b VS VE IN G N I P WR) as (l & t2 & s2 & e2 & X & RP & RS & RE & V1 & V2 & E1 & E2 & C2 & W2).
    rewrite X. cbn [bindr]. rewrite E1, E2. eexists. exists t2, s2, e2. split; [reflexivity|]. repeat (split; [assumption|]). split; [reflexivity|]. split; [reflexivity|]. exact W2.
Qed.

(** ** Slices *)

Lemma carried_cases q a z m s s2 : carried q a z m s s2 -> (exists k x, s = Some (q ++ k :: x) /\ s2 = Some (q ++ shift a z m k :: x)) \/ (forall k x, s <> Some (q ++ k :: x)) /\ s2 = s.
Proof.
  intros [A B]. destruct s as [s|]; [|right; split; [discriminate|apply B; discriminate]]. destruct (prefix_dec q s) as [[[|k x] ->]|N].
  - right. assert (X : forall k x, Some (q ++ []) <> Some (q ++ k :: x)) by (intros k x [= X]; apply app_inv_head in X; discriminate). auto.
  - left. eauto.
  - right. assert (X : forall k x, Some s <> Some (q ++ k :: x)) by (intros k x [= X]; now apply (N (k :: x))). auto.
Qed.
Lemma carried_fun q a z m s s1 s2 : carried q a z m s s1 -> carried q a z m s s2 -> s1 = s2.
Proof. intros A B. destruct (carried_cases _ _ _ _ _ _ A) as [(k & x & E & ->)|[N ->]]; [symmetry; now apply (proj1 B)|symmetry; now apply (proj2 B)]. Qed.
Lemma carried_moved q a z m s s2 : carried q a z m s s2 -> moved q s s2.
Proof. intros A. destruct (carried_cases _ _ _ _ _ _ A) as [(k & x & -> & ->)|[_ ->]]; [right; eauto|now left]. Qed.

Lemma shift_moved a z v k : a <= z -> k < a \/ z <= k -> Z.of_nat (shift a z (List.length v) k) = Range_Edit.moved (Z.of_nat k) a z v.
Proof. intros H C. unfold shift, Range_Edit.moved. destruct (k <? a) eqn:Q; destruct (Z.of_nat z <=? Z.of_nat k)%Z eqn:Q2; lia. Qed.

Lemma moved_mono x y a z v : a <= z -> Range_Edit.clear_of x a z -> Range_Edit.clear_of y a z -> (x <= y -> Range_Edit.moved x a z v <= Range_Edit.moved y a z v)%Z.
Proof. unfold Range_Edit.clear_of, Range_Edit.moved. intros H X Y L. destruct (Z.of_nat z <=? x)%Z eqn:Q; destruct (Z.of_nat z <=? y)%Z eqn:Q2; lia. Qed.

Lemma sliced_children n a z v : children (sliced n a z v) = splice (children n) a z v.
Proof. destruct n. reflexivity. Qed.
Lemma sliced_nth n a z v k : a <= z <= List.length (children n) -> k < a \/ z <= k -> nth_error (children (sliced n a z v)) (shift a z (List.length v) k) = nth_error (children n) k.
Proof.
  intros H C. rewrite sliced_children. unfold shift. destruct (k <? a) eqn:Q; [apply Range_Edit.splice_after; lia|]. apply Range_Edit.splice_before; lia.
Qed.
Lemma sliced_length n a z v : a <= z <= List.length (children n) -> List.length (children (sliced n a z v)) = List.length (children n) + List.length v - (z - a).
Proof. intros H. rewrite sliced_children. unfold splice. rewrite !app_length, firstn_length, skipn_length. lia. Qed.

Lemma sliced_valid q n a z v s s2 : a <= z <= List.length (children n) -> not_through q a z s -> carried q a z (List.length v) s s2 -> valid n (inners s q) -> valid (sliced n a z v) (inners s2 q).
Proof.
  intros H NT CA V. destruct (carried_cases _ _ _ _ _ _ CA) as [(k & x & E & E2)|[N ->]].
  - rewrite E2, E in *. rewrite inners_app_some in *. pose proof (sliced_nth n a z v k H (NT k x eq_refl)) as S. destruct (sliced n a z v) as [i ts], n as [i' ts']. cbn [valid children] in *. apply exists_cons in V as (c & C & V). apply exists_cons. exists c. split; [now rewrite S|exact V].
  - destruct (inners s q) as [[|k x]|] eqn:Q; [exists (sliced n a z v); constructor| |exact Logic.I]. exfalso. apply inners_some in Q as [[-> ->]| ->]; now apply (N k x).
Qed.

(** The trail of the level after the edit. *)
Lemma start_slice L s e q a z v s2 : good L (inners s q) (inners e q) -> wired s e (List.length q) L -> a <= z -> not_through q a z s -> carried q a z (List.length v) s s2 ->
  ((forall k x, s <> Some (q ++ k :: x)) -> 0 < a) ->
  let x := Range_Edit.moved (l_start L) a z v in let st := Range_Edit.moved_trail (l_start_trail L) (l_depth L) x in
  x = Z.of_nat (lo (inners s2 q)) /\ (st = None /\ s2 = s \/ st = s2 /\ s2 <> None) /\ st = (match l_start_trail L with Some _ => s2 | None => None end) /\
  (match truthy st with Some t => inners s2 q = Some (skipn (List.length q) t) /\ List.length q < List.length t | None => inners s2 q = None \/ inners s2 q = Some [] end).
Proof.
  intros G (D & WS & WE) AZ NT CA FI. cbn zeta. pose proof (g_start _ _ _ G) as K. unfold keeps_start in K. rewrite D in *. rewrite (g_lo _ _ _ G).
  destruct (carried_cases _ _ _ _ _ _ CA) as [(k & x & E & E2)|[N ->]].
  - rewrite E2, E in *. rewrite !inners_app_some in *. cbn [lo]. rewrite (shift_moved a z v k AZ (NT k x eq_refl)). split; [reflexivity|].
    assert (OWN : l_start_trail L = Some (q ++ k :: x)) by (destruct WS as [WS|WS]; [rewrite WS in K; cbn [truthy] in K; destruct K; discriminate|exact WS]).
    rewrite OWN. unfold Range_Edit.moved_trail. cbn [deep]. replace (List.length q <? List.length (q ++ k :: x)) with true by (symmetry; apply Nat.ltb_lt; rewrite app_length; cbn; lia). cbn [option_map].
    assert (P : put (q ++ k :: x) (List.length q) (Range_Edit.moved (Z.of_nat k) a z v) = q ++ shift a z (List.length v) k :: x).
    { unfold put. rewrite <- (shift_moved a z v k AZ (NT k x eq_refl)), Nat2Z.id. rewrite firstn_app, Nat.sub_diag, firstn_all. cbn [firstn]. rewrite app_nil_r. f_equal. f_equal. rewrite skipn_app, skipn_all2 by lia. replace (S (List.length q) - List.length q) with 1 by lia. reflexivity. }
    rewrite P. split; [right; split; [reflexivity|discriminate]|]. split; [reflexivity|]. assert (T : forall y w, truthy (Some (q ++ y :: w)) = Some (q ++ y :: w)) by (intros; destruct q; reflexivity). rewrite T. split; [|rewrite app_length; cbn; lia].
    f_equal. rewrite skipn_app, skipn_all, Nat.sub_diag. reflexivity.
  - specialize (FI N). assert (L0 : lo (inners s q) = 0). { destruct (inners s q) as [[|k x]|] eqn:Q; try reflexivity. exfalso. apply inners_some in Q as [[-> ->]| ->]; now apply (N k x). }
    rewrite L0. split; [unfold Range_Edit.moved; destruct (Z.of_nat z <=? Z.of_nat 0)%Z eqn:?; lia|].
    assert (ND : deep (l_start_trail L) (List.length q) = false).
    { destruct (deep (l_start_trail L) (List.length q)) eqn:DP; [|reflexivity]. exfalso. destruct (l_start_trail L) as [[|y st]|]; try discriminate. cbn [truthy] in K. destruct K as [K LT].
      destruct (skipn (List.length q) (y :: st)) as [|k x] eqn:SK; [pose proof (skipn_length (List.length q) (y :: st)) as SL; rewrite SK in SL; cbn [List.length] in *; lia|]. apply inners_some in K as [[-> E]|E]; rewrite E in N; now apply (N k x). }
    unfold Range_Edit.moved_trail. rewrite ND. destruct WS as [WS|WS]; rewrite WS in *; [split; [now left|split; [reflexivity|exact K]]|]. split; [destruct s; [right; split; [reflexivity|discriminate]|now left]|]. split; [now destruct s|exact K].
Qed.
Lemma end_slice L s e q a z v e2 : good L (inners s q) (inners e q) -> wired s e (List.length q) L -> a <= z <= List.length (children (l_node L)) -> not_through q a z e -> carried q a z (List.length v) e e2 ->
  ((forall x, e <> Some (q ++ x)) -> z < List.length (children (l_node L))) ->
  let x := Range_Edit.moved (l_end L) a z v in let et := Range_Edit.moved_trail (l_end_trail L) (l_depth L) x in
  x = hi (inners e2 q) (List.length (children (sliced (l_node L) a z v))) /\ (et = None /\ e2 = e \/ et = e2 /\ e2 <> None) /\ et = (match l_end_trail L with Some _ => e2 | None => None end) /\
  inners e2 q = option_map (skipn (List.length q)) et.
Proof.
  intros G (D & WS & WE) AZ NT CA LA. cbn zeta. pose proof (g_end _ _ _ G) as K. unfold keeps_end in K. rewrite D in *. rewrite (g_hi _ _ _ G). rewrite (sliced_length _ a z v AZ).
  destruct (carried_cases _ _ _ _ _ _ CA) as [(k & x & E & E2)|[N ->]].
  - rewrite E2, E in *. rewrite !inners_app_some in *. cbn [hi]. rewrite (shift_moved a z v k (proj1 AZ) (NT k x eq_refl)). split; [reflexivity|].
    assert (OWN : l_end_trail L = Some (q ++ k :: x)) by (destruct WE as [WE|WE]; [rewrite WE in K; discriminate|exact WE]).
    rewrite OWN. unfold Range_Edit.moved_trail. cbn [deep]. replace (List.length q <? List.length (q ++ k :: x)) with true by (symmetry; apply Nat.ltb_lt; rewrite app_length; cbn; lia). cbn [option_map].
    assert (P : put (q ++ k :: x) (List.length q) (Range_Edit.moved (Z.of_nat k) a z v) = q ++ shift a z (List.length v) k :: x).
    { unfold put. rewrite <- (shift_moved a z v k (proj1 AZ) (NT k x eq_refl)), Nat2Z.id. rewrite firstn_app, Nat.sub_diag, firstn_all. cbn [firstn]. rewrite app_nil_r. f_equal. f_equal. rewrite skipn_app, skipn_all2 by lia. replace (S (List.length q) - List.length q) with 1 by lia. reflexivity. }
    rewrite P. split; [right; split; [reflexivity|discriminate]|]. split; [reflexivity|]. cbn [option_map]. f_equal. rewrite skipn_app, skipn_all, Nat.sub_diag. reflexivity.
  - assert (ND : deep (l_end_trail L) (List.length q) = false).
    { destruct (deep (l_end_trail L) (List.length q)) eqn:DP; [|reflexivity]. exfalso. destruct (l_end_trail L) as [et|]; [|discriminate]. cbn [deep option_map] in *. apply Nat.ltb_lt in DP.
      destruct (skipn (List.length q) et) as [|k x] eqn:SK; [pose proof (skipn_length (List.length q) et) as SL; rewrite SK in SL; cbn [List.length] in *; lia|]. apply inners_some in K as [[-> E]|E]; rewrite E in N; now apply (N k x). }
    unfold Range_Edit.moved_trail. rewrite ND. split.
    + destruct (inners e q) as [[|k x]|] eqn:Q; cbn [hi].
      * unfold Range_Edit.moved. destruct (Z.of_nat z <=? -1)%Z eqn:?; lia.
      * exfalso. apply inners_some in Q as [[-> ->]| ->]; now apply (N k x).
      * assert (z < List.length (children (l_node L))). { apply LA. intros x ->. rewrite inners_app_some in Q. discriminate. } unfold Range_Edit.moved. destruct (Z.of_nat z <=? _)%Z eqn:?; lia.
    + destruct WE as [WE|WE]; rewrite WE in *; [split; [now left|split; [reflexivity|exact K]]|]. split; [destruct e; [right; split; [reflexivity|discriminate]|now left]|]. split; [now destruct e|exact K].
Qed.

Lemma cur_set_slice t s e p b r n a z v : valid t s -> valid t e -> cur t s e p b r -> wired_range s e r -> let q := level_path p b in
  reach t q n -> clear q n s e p a z -> forall s2 e2 p2, carried q a z (List.length v) s s2 -> carried q a z (List.length v) e e2 -> carried q a z (List.length v) (Some p) (Some p2) ->
  exists t2, replaced (sliced n a z v) t q t2 /\ valid t2 s2 /\ valid t2 e2 /\ cur t2 s2 e2 p2 b (set_range_slice r (Some (Z.of_nat a)) (Some (Z.of_nat z)) v) /\ wired_range s2 e2 (set_range_slice r (Some (Z.of_nat a)) (Some (Z.of_nat z)) v).
Proof.
  intros VS VE C (_ & _ & WR) q0 R0 [C1 C2 C3 C4 C5 C6] s2 e2 p2 CS CE CP. destruct C as (q & n' & s' & e' & L & below & -> & IN & G & N & P). cbn [r_top r_below] in WR.
  assert (LP : q0 = q) by (unfold q0, level_path; destruct b; [destruct P as [-> _]; reflexivity|destruct P as (i & -> & _); now rewrite removelast_last]). clearbody q0. subst q0.
  destruct (inside_facts t s e q n' s' e' below VS VE IN) as (R & S1 & E1 & RE & V1 & V2 & LN & _). rewrite (reach_fun t q n n' R0 R) in *. clear R0 n. destruct WR as [WL WR]. rewrite LN in WL. subst n' s' e'.
  set (n := l_node L) in *.
  assert (NE : children n <> []).
  { intros E. rewrite E in C1, C5. cbn [List.length] in C1, C5. destruct (carried_cases _ _ _ _ _ _ CS) as [(k & x & E2 & _)|[NO _]]; [|pose proof (C3 NO); lia]. rewrite E2, inners_app_some in V1. cbn [valid] in V1. destruct n as [i ts]. apply exists_cons in V1 as (c & X & _). cbn [children] in E. subst ts. now destruct k. }
  assert (K1 : Range_Edit.clear_of (l_start L) a z).
  { rewrite (g_lo _ _ _ G). unfold Range_Edit.clear_of. destruct (carried_cases _ _ _ _ _ _ CS) as [(k & x & E2 & _)|[NO _]].
    - rewrite E2, inners_app_some. cbn [lo]. pose proof (C2 k x E2). lia.
    - specialize (C3 NO). destruct (inners s q) as [[|k x]|] eqn:Q; cbn [lo]; try lia. exfalso. apply inners_some in Q as [[-> ->]| ->]; now apply (NO k x). }
  assert (K2 : Range_Edit.clear_of (l_end L) a z).
  { rewrite (g_hi _ _ _ G). unfold Range_Edit.clear_of. fold n. destruct (inners e q) as [[|k x]|] eqn:Q; cbn [hi].
    - lia.
    - assert (E2 : e = Some (q ++ k :: x)) by (apply inners_some in Q as [[-> ->]| ->]; reflexivity). pose proof (C4 k x E2). lia.
    - assert (z < List.length (children n)) by (apply C5; intros x ->; rewrite inners_app_some in Q; discriminate). lia. }
  assert (K3 : Range_Edit.clear_of (l_index L) a z).
  { unfold Range_Edit.clear_of. destruct b; [destruct P as [_ ->]; lia|]. destruct P as (i & -> & -> & _). pose proof (C6 i [] eq_refl). lia. }
  pose proof (Range_Edit.edited_spec L _ _ a z v G NE C1 K1 K2 K3) as ED. unfold Range_Edit.edited in ED. fold n in ED.
  replace (set_children n (splice (children n) a z v)) with (sliced n a z v) in ED by (destruct n; reflexivity).
  destruct (start_slice L s e q a z v s2 G WL (proj1 C1) C2 CS C3) as (SX & SS & SO & SK). destruct (end_slice L s e q a z v e2 G WL C1 C4 CE C5) as (EX & ES & EO & EK). cbn zeta in *.
  pose proof (sliced_valid q n a z v s s2 C1 C2 CS V1) as VS2. pose proof (sliced_valid q n a z v e e2 C1 C4 CE V2) as VE2.
  set (st := Range_Edit.moved_trail (l_start_trail L) (l_depth L) (Range_Edit.moved (l_start L) a z v)) in *. set (et := Range_Edit.moved_trail (l_end_trail L) (l_depth L) (Range_Edit.moved (l_end L) a z v)) in *.
  destruct (rebuild_inside t s e VS VE q _ _ _ below IN WR (sliced n a z v) s2 e2 st et (carried_moved _ _ _ _ _ _ CS) (carried_moved _ _ _ _ _ _ CE) VS2 VE2 SS ES) as (t2 & RP & VT1 & VT2 & IN2 & WR2 & LN2).
  exists t2. split; [exact RP|]. split; [exact VT1|]. split; [exact VT2|]. destruct WL as (D & WS & WE).
  unfold set_range_slice. cbn [r_top r_start_trail r_end_trail r_below]. rewrite ED. cbn [l_start_trail l_end_trail l_node].
  assert (A1 : shared st s = s2) by (rewrite (shared_is st s s s2 (or_intror eq_refl) SS); destruct s; [reflexivity|]; destruct SS as [[_ ->]|[_ X]]; [reflexivity|]; rewrite (proj2 CS) in X by discriminate; congruence).
  assert (A2 : shared et e = e2) by (rewrite (shared_is et e e e2 (or_intror eq_refl) ES); destruct e; [reflexivity|]; destruct ES as [[_ ->]|[_ X]]; [reflexivity|]; rewrite (proj2 CE) in X by discriminate; congruence).
  rewrite A1, A2. split.
  - exists q, (sliced n a z v), (inners s2 q), (inners e2 q). eexists. exists (rebuild (sliced n a z v) st et below). split; [reflexivity|]. split; [exact IN2|]. split; [|split; [reflexivity|]].
    + split; cbn [l_node l_depth l_start_trail l_end_trail l_start l_end l_index]; [unfold keeps_start; cbn [l_start_trail l_depth]; rewrite D; exact SK|unfold keeps_end; cbn [l_end_trail l_depth]; rewrite D; exact EK|exact SX|exact EX| |exact VS2|exact VE2].
      pose proof (g_index _ _ _ G). unfold Range_Edit.moved. destruct (Z.of_nat z <=? l_index L)%Z eqn:?; lia.
    + unfold placed in *. cbn [l_index]. destruct b.
      * destruct P as [-> IX]. split; [|rewrite IX; unfold Range_Edit.moved; destruct (Z.of_nat z <=? -1)%Z eqn:?; lia].
        assert (X : Some p2 = Some q) by (apply (proj2 CP); intros k x [= X]; rewrite <- (app_nil_r q) in X at 1; apply app_inv_head in X; discriminate). congruence.
      * destruct P as (i & -> & IX & W). exists (shift a z (List.length v) i). assert (X : Some p2 = Some (q ++ [shift a z (List.length v) i])) by (apply (proj1 CP); reflexivity). split; [congruence|]. pose proof (C6 i [] eq_refl) as CI. rewrite IX. split; [now rewrite (shift_moved a z v i (proj1 C1) CI)|].
        unfold within in *. fold n in EX. rewrite <- EX. fold n in G. assert (LO := SX). rewrite (g_lo _ _ _ G) in LO. rewrite (g_hi _ _ _ G). fold n. assert (MI := shift_moved a z v i (proj1 C1) CI). unfold Range_Edit.clear_of in *. rewrite (g_lo _ _ _ G) in K1. rewrite (g_hi _ _ _ G) in K2. fold n in K2.
        apply andb_true_iff in W as [W1 W2]. apply Nat.leb_le in W1. apply Z.leb_le in W2. apply andb_true_iff. split; [apply Nat.leb_le; apply Nat2Z.inj_le; rewrite <- LO, MI|apply Z.leb_le; rewrite MI]; (apply moved_mono; [lia|assumption || (unfold Range_Edit.clear_of; lia)|assumption || (unfold Range_Edit.clear_of; lia)|lia]).
  - split; [reflexivity|]. split; [reflexivity|]. cbn [r_top r_below wires]. split; [|exact WR2]. rewrite LN2, LN. split; [exact D|]. cbn [l_start_trail l_end_trail]. rewrite SO, EO. split; [destruct (l_start_trail L); auto|destruct (l_end_trail L); auto].
Qed.
Lemma carried_some q a z m p : exists p2, carried q a z m (Some p) (Some p2).
Proof.
  destruct (prefix_dec q p) as [[[|k x] ->]|N].
  - exists (q ++ []). split; [|reflexivity]. intros k x [= X]. apply app_inv_head in X. discriminate.
  - exists (q ++ shift a z m k :: x). split; [|intros X; now elim (X k x)]. intros k' x' [= X]. apply app_inv_head in X. injection X as -> ->. reflexivity.
  - exists p. split; [|reflexivity]. intros k x [= X]. now elim (N (k :: x)).
Qed.

(** ** However it was used *)

Lemma used_all t s e r : used t s e r -> valid t s /\ valid t e /\ wired_range s e r /\ exists p b, cur t s e p b r.
Proof.
  intros U. induction U as [t s e r VS VE H|t s e rv r n r' U (VS & VE & W & p & b & C) H|t s e r r' U (VS & VE & W & p & b & C) H|t s e r U (VS & VE & W & p & b & C)|t s e r U (VS & VE & W & p & b & C)
    |t s e r p' r' U (VS & VE & W & p & b & C) EX RE H|t s e r i r' U (VS & VE & W & p & b & C) H|t s e r p b v r' t' s' e' U (VS & VE & W & p0 & b0 & C) ST H RP RS RE|t s e r p b n a z v t' s' e' U (VS & VE & W & p0 & b0 & C) ST RC CL RP CS CE|t s e r p b i v r' t' s' e' U (VS & VE & W & p0 & b0 & C) ST H RP RS RE].
  - split; [exact VS|]. split; [exact VE|]. split; [eapply wires_new; eauto|]. exists [], true. now apply cur_new.
  - split; [exact VS|]. split; [exact VE|]. split; [eapply wires_step; eauto|]. destruct (cur_step t s e p b r rv VS VE C) as [[X _]|(q & j & c & r1 & X & _ & C' & _)]; [congruence|]. rewrite H in X. injection X as -> ->. eauto.
  - split; [exact VS|]. split; [exact VE|]. split; [eapply wires_enter; eauto|]. destruct (cur_enter t s e p b r VS VE C) as (r1 & X & C'). rewrite H in X. injection X as ->. eauto.
  - split; [exact VS|]. split; [exact VE|]. split; [now apply wires_leave|]. destruct (cur_leave t s e p b r VS VE C) as [_ C']. eauto.
  - split; [exact VS|]. split; [exact VE|]. split; [now apply wires_reset|]. exists [], true. eapply cur_reset; eauto.
  - split; [exact VS|]. split; [exact VE|]. split; [unfold goto_trail in H; eapply wires_down; [|exact H]; now apply wires_reset|]. destruct (cur_goto t s e p b r p' VS VE C EX RE) as (r1 & X & C'). rewrite H in X. injection X as ->. eauto.
  - split; [exact VS|]. split; [exact VE|]. split; [eapply wires_index; eauto|]. unfold set_range_index in H. destruct C as (q & n & s' & e' & L & below & -> & IN & G & N & P). cbn [r_top with_top r_start_trail r_end_trail r_below] in H.
    destruct ((i <? l_start L) || (l_end L <? i))%Z eqn:Q; [discriminate|]. injection H as <-. exists (q ++ [Z.to_nat i]), false, q, n, s', e', (set_index L i), below.
    split; [reflexivity|]. split; [exact IN|]. rewrite (g_lo _ _ _ G), (g_hi _ _ _ G) in Q. split; [apply set_index_good; [exact G|lia]|]. split; [exact N|]. exists (Z.to_nat i). split; [reflexivity|]. split; [cbn; lia|]. unfold within. rewrite <- N. lia.
  - destruct (stands_fun r p b p0 b0 ST (cur_stands t s e p0 b0 r VS VE C)) as [<- <-]. destruct (cur_set_node t s e p b r v VS VE C W) as [A B].
    assert (NP : p <> []) by (intros ->; rewrite (A eq_refl) in H; discriminate). destruct (B NP) as (r1 & t2 & s2 & e2 & X & RP' & RS' & RE' & V1 & V2 & C' & W'). rewrite H in X. injection X as <-.
    rewrite (replaced_fun v t p t' t2 RP RP'), (retracted_fun p s s' s2 RS RS'), (retracted_fun p e e' e2 RE RE'). eauto 6.
  - destruct (stands_fun r p b p0 b0 ST (cur_stands t s e p0 b0 r VS VE C)) as [<- <-]. destruct (carried_some (level_path p b) a z (List.length v) p) as [p2 CP].
    destruct (cur_set_slice t s e p b r n a z v VS VE C W RC CL s' e' p2 CS CE CP) as (t2 & RP' & V1 & V2 & C' & W'). rewrite (replaced_fun _ t _ t' t2 RP RP'). eauto 6.
  - destruct (stands_fun r p b p0 b0 ST (cur_stands t s e p0 b0 r VS VE C)) as [<- <-].
    assert (R : exists n, reach t (level_path p b) n) by (destruct C as (q & n' & s1 & e1 & L & below & _ & IN & _ & _ & P); exists n'; replace (level_path p b) with q by (unfold level_path; destruct b; [destruct P as [-> _]; reflexivity|destruct P as (k & -> & _); now rewrite removelast_last]); apply (inside_facts t s e q n' s1 e1 below VS VE IN)).
    destruct R as [n R]. destruct (cur_set_item t s e p b r i v n VS VE C W R) as [A B]. destruct (Nat.lt_ge_cases i (List.length (children n))) as [I|I]; [|rewrite (A I) in H; discriminate].
    destruct (B I) as (r1 & t2 & s2 & e2 & X & RP' & RS' & RE' & V1 & V2 & C' & W'). rewrite H in X. injection X as <-.
    rewrite (replaced_fun v t _ t' t2 RP RP'), (retracted_fun _ s s' s2 RS RS'), (retracted_fun _ e e' e2 RE RE'). eauto 6.
Qed.

Lemma used_at t s e r p b : used t s e r -> stands r p b -> valid t s /\ valid t e /\ cur t s e p b r.
Proof.
  intros U ST. destruct (used_all t s e r U) as (VS & VE & _ & p' & b' & C). destruct (stands_fun r p b p' b' ST (cur_stands t s e p' b' r VS VE C)) as [-> ->]. auto.
Qed.
