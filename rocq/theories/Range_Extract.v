(** Proofs about ranges: going to a node, extracting and membership. *)
From Coq Require Import List ZArith Bool PeanoNat Sorting.Sorted Lia ZifyBool ZifyNat.
From Verif Require Import Base Node_Model Node_Spec Node_Nav Range_Model Range_Spec Range_Proofs Range_Machine.
Import ListNotations.

(** ** Going to a trail *)

Lemma inners_snoc e p i : inners e (p ++ [i]) = inner (inners e p) i.
Proof. revert e. induction p as [|x p IH]; intros e; cbn; auto. Qed.

Lemma inners_app e p q : inners e (p ++ q) = inners (inners e p) q.
Proof. revert e. induction p as [|x p IH]; intros e; cbn; auto. Qed.

Lemma go_down_pos st et : forall p t s e L below, p <> [] -> good L s e -> l_node L = t -> exists_at t p ->
  exists L' below' c L2, go_down (Range st et L below) p = Ok (Range st et L' below') /\ reach t p c /\ current (Range st et L' below') = Ok c /\
    List.length below' + 1 = List.length p + List.length below /\
    map l_index (rev (L' :: below')) = map l_index (rev below) ++ map Z.of_nat p /\ (0 <= l_index L')%Z /\
    level_child L' (l_index L') = Ok L2 /\ good L2 (inners s p) (inners e p) /\ l_node L2 = c /\ l_index L2 = (-1)%Z /\
    exists s' e', good L' s' e' /\ inner s' (Z.to_nat (l_index L')) = inners s p /\ inner e' (Z.to_nat (l_index L')) = inners e p.
Proof.
  induction p as [|i p IH]; intros t s e L below NE G EN EX; [congruence|]. destruct t as [n ts]. apply exists_cons in EX as (c & E & EC).
  set (L1 := set_index L (Z.of_nat i)). assert (G1 : good L1 s e) by (apply set_index_good; [exact G|lia]).
  assert (E1 : nth_error (children (l_node L1)) i = Some c) by (cbn [L1 set_index l_node]; now rewrite EN).
  destruct (level_child_good L1 s e i c G1 E1) as (L2 & C2 & G2 & N2 & I2). cbn [go_down with_top r_top r_start_trail r_end_trail r_below]. fold L1. destruct p as [|j p].
  - exists L1, below, c, L2. split; [reflexivity|]. split; [econstructor; [exact E|constructor]|]. split.
    { unfold current. cbn [r_top L1 set_index l_index l_node]. replace (Z.of_nat i =? -1)%Z with false by lia. rewrite EN. unfold item_at. rewrite Nat2Z.id. cbn [children]. now rewrite E. }
    split; [cbn; lia|]. split; [cbn [rev]; rewrite map_app; reflexivity|]. split; [cbn; lia|]. split; [exact C2|]. split; [exact G2|]. split; [exact N2|]. split; [exact I2|].
    exists s, e. split; [exact G1|]. cbn [L1 set_index l_index inners]. rewrite Nat2Z.id. auto.
  - cbn [l_index L1 set_index]. fold L1. rewrite C2. cbn [bindr].
    destruct (IH c (inner s i) (inner e i) L2 (L1 :: below) ltac:(discriminate) G2 N2 EC) as (L' & b' & m & L3 & X1 & X2 & X3 & X4 & X5 & X6 & X7).
    exists L', b', m, L3. split; [exact X1|]. split; [econstructor; eauto|]. split; [exact X3|]. split; [cbn [List.length] in *; lia|]. split; [|split; [exact X6|exact X7]].
    rewrite X5. cbn [rev map]. rewrite map_app. cbn [map L1 set_index l_index]. now rewrite <- app_assoc.
Qed.

(** ** Extracting *)

Fixpoint restrict (s e : option (list nat)) (t : tree) : tree :=
  match t with T n ts =>
    T n ((fix go (i : nat) (l : list tree) : list tree := match l with
          | [] => []
          | c :: r => if within s e (List.length ts) i then restrict (inner s i) (inner e i) c :: go (S i) r else go (S i) r
          end) 0 ts)
  end.

Definition kid (s e : option (list nat)) (ts : list tree) (i : nat) : tree :=
  match nth_error ts i with Some c => restrict (inner s i) (inner e i) c | None => T 0 [] end.
Definition kids_of (s e : option (list nat)) (ts : list tree) : list tree :=
  map (kid s e ts) (seq (lo s) (Z.to_nat (hi e (List.length ts) + 1 - Z.of_nat (lo s)))).

Lemma filter_within n ts s e : valid (T n ts) s -> valid (T n ts) e ->
  filter (within s e (List.length ts)) (seq 0 (List.length ts)) = seq (lo s) (Z.to_nat (hi e (List.length ts) + 1 - Z.of_nat (lo s))).
Proof.
  intros VS VE. pose proof (valid_hi n ts e VE) as H1. pose proof (valid_lo n ts s VS) as H2. assert (LL : lo s <= List.length ts) by (destruct s as [[|i s]|]; cbn; lia).
  set (k := Z.to_nat (hi e (List.length ts) + 1 - Z.of_nat (lo s))). assert (K : lo s + k <= List.length ts) by lia.
  replace (List.length ts) with (lo s + (k + (List.length ts - lo s - k))) at 2 by lia. rewrite !seq_app, !filter_app. cbn [Nat.add].
  rewrite (filter_none _ (seq 0 (lo s))), (filter_all _ (seq (lo s) k)), (filter_none _ (seq (lo s + k) _)); [now rewrite app_nil_r| | |]; intros x J; apply in_seq in J; unfold within; lia.
Qed.

Lemma restrict_eq s e n ts : valid (T n ts) s -> valid (T n ts) e -> restrict s e (T n ts) = T n (kids_of s e ts).
Proof.
  intros VS VE. unfold kids_of. rewrite <- (filter_within n ts s e VS VE). cbn [restrict]. f_equal.
  assert (X : forall l k, (forall j c, nth_error l j = Some c -> nth_error ts (k + j) = Some c) ->
    (fix go (i : nat) (l : list tree) : list tree := match l with [] => [] | c :: r => if within s e (List.length ts) i then restrict (inner s i) (inner e i) c :: go (S i) r else go (S i) r end) k l
    = map (kid s e ts) (filter (within s e (List.length ts)) (seq k (List.length l)))).
  { induction l as [|c l IH]; intros k H; [reflexivity|]. cbn [List.length seq filter]. rewrite IH; [|intros j c' E; specialize (H (S j) c' E); now rewrite Nat.add_succ_r in H].
    destruct (within s e (List.length ts) k); [|reflexivity]. cbn [map]. f_equal. unfold kid. specialize (H 0 c eq_refl). rewrite Nat.add_0_r in H. now rewrite H. }
  apply X. auto.
Qed.

Fixpoint size (t : tree) : nat := match t with T _ ts => S ((fix go l := match l with [] => 0 | c :: r => size c + go r end) ts) end.
Definition sizes (l : list tree) : nat := list_sum (map size l).
Lemma size_eq n ts : size (T n ts) = S (sizes ts).
Proof. cbn [size]. f_equal. unfold sizes. induction ts as [|c r IH]; [reflexivity|]. cbn [map list_sum fold_right]. now rewrite IH. Qed.
Lemma sizes_cons c r : sizes (c :: r) = size c + sizes r. Proof. reflexivity. Qed.

Definition klvl (L : level) (ks : list tree) : Prop := exists s e, good L s e /\ ks = map (kid s e (children (l_node L))) (rem false L).

Definition grow (node : nat * list tree) (ks : list tree) : tree := T (fst node) (rev (snd node) ++ ks).
Fixpoint assemble (node : tree) (parents : list (nat * list tree)) (kss : list (list tree)) : tree :=
  match parents, kss with
  | p :: ps, ks :: kss => assemble (T (fst p) (rev (snd p) ++ node :: ks)) ps kss
  | _, _ => node
  end.

Lemma restrict_tid s e t : tid (restrict s e t) = tid t.
Proof. destruct t. reflexivity. Qed.

Lemma extract_out st et : forall fuel L below ks kss node parents, klvl L ks -> Forall2 klvl below kss -> List.length parents = List.length below ->
  2 * sizes ks + 2 * list_sum (map sizes kss) + List.length below < fuel ->
  extract_loop fuel node parents (Range st et L below) = Ok (assemble (grow node ks) parents kss).
Proof.
  induction fuel as [|fuel IH]; intros L below ks kss node parents KL F LP LE; [lia|]. destruct KL as (s & e & G & ->). cbn [extract_loop].
  pose proof (step_spec false L s e G ltac:(discriminate)) as SP. destruct (rem false L) as [|i l] eqn:R; unfold step, step_level in *; cbn [r_top].
  - rewrite SP. cbn [bindr map]. unfold leave. cbn [r_below]. destruct below as [|b below].
    + inversion F; subst. destruct parents; [|discriminate]. cbn [Nat.eqb assemble]. unfold grow. now rewrite app_nil_r.
    + destruct parents as [|p parents]; [discriminate|]. inversion F as [|? kb ? kss' KB F']; subst. cbn [List.length Nat.eqb r_start_trail r_end_trail] in *. rewrite (IH b below kb kss' _ parents KB F') by (cbn [map list_sum fold_right] in LE; fold (list_sum (map sizes kss')) in LE; lia).
      cbn [assemble]. unfold grow. cbn [fst snd rev]. now rewrite app_nil_r, <- app_assoc.
  - destruct SP as (c & E & -> & R2 & LE2). cbn [bindr with_top r_start_trail r_end_trail r_below]. set (L1 := set_index L (Z.of_nat i)) in *.
    assert (G1 : good L1 s e) by (apply set_index_good; [exact G|lia]). assert (K1 : klvl L1 (map (kid s e (children (l_node L))) l)) by (exists s, e; split; [exact G1|]; rewrite R2; reflexivity).
    destruct (level_child_good L1 s e i c G1 E) as (L2 & E2 & G2 & N2 & I2).
    cbn [map] in LE |- *. rewrite sizes_cons in LE. assert (KI : kid s e (children (l_node L)) i = restrict (inner s i) (inner e i) c) by (unfold kid; now rewrite E). rewrite KI in *.
    destruct c as [cn cs] eqn:CE. assert (RQ : restrict (inner s i) (inner e i) (T cn cs) = T cn (kids_of (inner s i) (inner e i) cs)).
    { apply restrict_eq; [pose proof (g_vs _ _ _ G2)|pose proof (g_ve _ _ _ G2)]; now rewrite N2 in *. }
    rewrite RQ, size_eq in *. cbn [children tid]. destruct (List.length cs =? 0) eqn:LC; cbn [negb].
    + destruct cs; [|discriminate]. assert (KN : kids_of (inner s i) (inner e i) [] = []).
      { unfold kids_of. destruct (Z.to_nat (hi (inner e i) (List.length (@nil tree)) + 1 - Z.of_nat (lo (inner s i)))) eqn:K; [reflexivity|]. exfalso. cbn [List.length] in K.
        pose proof (g_ve _ _ _ G2) as VE. rewrite N2 in VE. apply valid_hi in VE. cbn in VE. lia. }
      rewrite KN in *. rewrite (IH L1 below (map (kid s e (children (l_node L))) l) kss) by (auto; lia). unfold grow. cbn [fst snd rev]. now rewrite <- app_assoc.
    + unfold enter. unfold with_top. cbn [r_top r_start_trail r_end_trail r_below]. change (l_index L1) with (Z.of_nat i). replace (Z.of_nat i =? -1)%Z with false by lia. rewrite E2. cbn [bindr].
      rewrite (IH L2 (L1 :: below) (kids_of (inner s i) (inner e i) cs) (map (kid s e (children (l_node L))) l :: kss) (cn, []) (node :: parents)).
      * cbn [assemble]. unfold grow. cbn [fst snd rev app]. reflexivity.
      * exists (inner s i), (inner e i). split; [exact G2|]. unfold kids_of, rem. rewrite I2, N2, (g_lo _ _ _ G2), (g_hi _ _ _ G2), N2. cbn [Z.eqb Pos.eqb children]. now rewrite Nat2Z.id.
      * now constructor.
      * cbn. now rewrite LP.
      * cbn [map List.length]. change (list_sum (sizes (map (kid s e (children (l_node L))) l) :: map sizes kss)) with (sizes (map (kid s e (children (l_node L))) l) + list_sum (map sizes kss)). lia.
Qed.

Lemma truthy_restrict s e t : restrict (truthy s) e t = restrict s e t.
Proof. destruct s as [[|x s]|]; try reflexivity. destruct t as [n ts]. cbn [truthy]. cbn [restrict]. f_equal. Qed.

(** extract_tree at a level from which nothing is visited yet. *)
Lemma extract_from t s e : valid t s -> valid t e -> exists f0, forall fuel, f0 <= fuel ->
  (let! r := new_range t (truthy s) e in extract_loop fuel (tid (ancestor r), []) [] r) = Ok (restrict s e t).
Proof.
  intros VS VE. assert (VT : valid t (truthy s)) by (destruct s as [[|x s]|]; [exact Logic.I|exact VS|exact VS]).
  destruct (fresh_range t (truthy s) e VT VE) as (L & E & G & N & IX). rewrite E. cbn [bindr]. rewrite <- (truthy_restrict s e t). destruct t as [n ts]. set (s' := truthy s) in *.
  exists (2 * sizes (kids_of s' e ts) + 1). intros fuel LF. rewrite restrict_eq by assumption.
  rewrite (extract_out s' e fuel L [] (kids_of s' e ts) []); [|exists s', e; split; [exact G|]|constructor|reflexivity|cbn; lia].
  - cbn [assemble grow fst snd rev app]. unfold ancestor, base_level. cbn [r_below r_top List.last]. unfold grow. cbn [fst snd rev app]. now rewrite N.
  - unfold kids_of, rem. rewrite IX, N, (g_lo _ _ _ G), (g_hi _ _ _ G), N. cbn [Z.eqb Pos.eqb children]. now rewrite Nat2Z.id.
Qed.

Lemma level_trails L s e : good L s e -> 
  match truthy (l_start_trail L) with Some t => truthy (Some (skipn (l_depth L) t)) | None => None end = truthy s /\
  match l_end_trail L with Some t => Some (skipn (l_depth L) t) | None => None end = e.
Proof.
  intros G. split.
  - pose proof (g_start L s e G) as K. unfold keeps_start in K. destruct (truthy (l_start_trail L)) as [t|]; [destruct K as [-> _]; reflexivity|destruct K as [->| ->]; reflexivity].
  - pose proof (g_end L s e G) as K. unfold keeps_end in K. rewrite K. reflexivity.
Qed.

Lemma extract_here t s e p : valid t s -> valid t e -> exists_at t p ->
  exists f0 r r1 c, new_range t s e = Ok r /\ goto_trail r (Some p) = Ok r1 /\ reach t p c /\ current r1 = Ok c /\ forall fuel, f0 <= fuel -> extract_tree fuel r1 = Ok (restrict (inners s p) (inners e p) c).
Proof.
  intros VS VE EX. destruct (fresh_range t s e VS VE) as (L & E & G & N & IX). assert (G0 : good (set_index L (-1)) s e) by (apply set_index_good; [exact G|lia]).
  destruct p as [|i p].
  - destruct (level_trails L s e G) as [T1 T2]. destruct (extract_from t s e VS VE) as (f0 & F). exists f0, (Range s e L []), (Range s e (set_index L (-1)) []), t.
    split; [exact E|]. split; [reflexivity|]. split; [constructor|]. split; [unfold current; cbn; now rewrite N|]. intros fuel LF. unfold extract_tree, from_here. cbn [r_top set_index l_index Z.ltb Z.compare bindr l_start_trail l_end_trail l_depth l_node]. cbn. cbn in T1, T2. rewrite T1, T2, N.
    apply F, LF.
  - destruct (go_down_pos s e (i :: p) t s e (set_index L (-1)) [] ltac:(discriminate) G0 N EX) as (L' & b' & c & L2 & X1 & X2 & X3 & _ & _ & X6 & X7 & X8 & X9 & _).
    assert (V1 := g_vs _ _ _ X8). assert (V2 := g_ve _ _ _ X8). rewrite X9 in V1, V2. destruct (extract_from c _ _ V1 V2) as (f0 & F).
    exists f0, (Range s e L []), (Range s e L' b'), c. split; [exact E|]. split; [exact X1|]. split; [exact X2|]. split; [exact X3|]. intros fuel LF. unfold extract_tree, from_here. cbn [r_top].
    replace (-1 <? l_index L')%Z with true by lia. rewrite X7. cbn [bindr]. destruct (level_trails L2 _ _ X8) as [T1 T2]. rewrite T1, T2, X9. apply F, LF.
Qed.

(** *** What the extracted tree is *)

Lemma reached_inners s e p q t : exists_at t (p ++ q) -> reached s e p -> (reached s e (p ++ q) <-> reached (inners s p) (inners e p) q).
Proof.
  revert s e t. induction p as [|i p IH]; intros s e t EX R; [reflexivity|]. destruct t as [n ts]. cbn [app] in EX. apply exists_cons in EX as (c & E & EX). assert (I : i < List.length ts) by (apply nth_error_Some; congruence).
  cbn [app inners]. apply (reached_cons s e i p _ I) in R as (A & C & R). rewrite (reached_cons s e i (p ++ q) _ I), (IH _ _ c EX R). tauto.
Qed.

Fixpoint offs (s : option (list nat)) (here : list nat) : nat :=
  match here with [] => lo s | i :: h => offs (inner s (i + lo s)) h end.

Lemma shifted_cons off i : forall q h, shifted off (i :: h) q = shifted (fun x => off (i :: x)) h q.
Proof. induction q as [|j q IH]; intros h; [reflexivity|]. cbn [shifted]. f_equal. now rewrite <- IH. Qed.
Lemma shifted_ext f g : (forall h, f h = g h) -> forall q h, shifted f h q = shifted g h q.
Proof. intros E. induction q as [|j q IH]; intros h; [reflexivity|]. cbn [shifted]. now rewrite E, IH. Qed.

Lemma shifted_offs s i q : shifted (offs s) [] (i :: q) = (i + lo s) :: shifted (offs (inner s (i + lo s))) [] q.
Proof. cbn [shifted offs app]. f_equal. rewrite shifted_cons. apply shifted_ext. reflexivity. Qed.

Lemma kids_nth s e ts i m : nth_error (kids_of s e ts) i = Some m <-> m = kid s e ts (i + lo s) /\ (Z.of_nat (i + lo s) <= hi e (List.length ts))%Z.
Proof.
  unfold kids_of. set (k := Z.to_nat (hi e (List.length ts) + 1 - Z.of_nat (lo s))). split.
  - intros H. assert (L : i < k) by (rewrite <- (seq_length k (lo s)), <- (map_length (kid s e ts)); apply nth_error_Some; congruence).
    rewrite (map_nth_error (kid s e ts) i (seq (lo s) k) (d := lo s + i)) in H; [|rewrite (nth_error_nth' (seq (lo s) k) 0) by (rewrite seq_length; lia); now rewrite seq_nth]. injection H as <-. rewrite (Nat.add_comm (lo s) i). split; [reflexivity|lia].
  - intros [-> L]. rewrite (Nat.add_comm i (lo s)). apply map_nth_error. rewrite (nth_error_nth' (seq (lo s) k) 0) by (rewrite seq_length; lia). rewrite seq_nth by lia. reflexivity.
Qed.

Lemma restrict_part : forall t s e, valid t s -> valid t e -> is_part (restrict s e t) t (reached s e).
Proof.
  intros t s e VS VE. exists (offs s). revert s e VS VE. induction t as [n ts IH] using tree_ind2. intros s e VS VE. rewrite Forall_forall in IH. rewrite restrict_eq by assumption.
  assert (KID : forall i m, nth_error (kids_of s e ts) i = Some m -> exists c, nth_error ts (i + lo s) = Some c /\ m = restrict (inner s (i + lo s)) (inner e (i + lo s)) c /\ (Z.of_nat (i + lo s) <= hi e (List.length ts))%Z).
  { intros i m H. apply kids_nth in H as [-> L]. assert (HL := valid_hi n ts e VE). unfold kid. destruct (nth_error ts (i + lo s)) as [c|] eqn:E; [eauto|]. apply nth_error_None in E. lia. }
  split.
  - intros q m R. destruct q as [|i q]; [inversion R; subst; exists (T n ts); split; [constructor|reflexivity]|]. apply reach_cons in R as (m' & E & R). apply KID in E as (c & E & -> & L).
    destruct (IH c (nth_error_In _ _ E) (inner s (i + lo s)) (inner e (i + lo s))) as [P1 _]; [eapply valid_inner; eauto|eapply valid_inner; eauto|].
    destruct (P1 q m R) as (x & RX & TX). exists x. split; [|exact TX]. rewrite shifted_offs. econstructor; eauto.
  - intros p. split.
    + intros [R EX]. destruct p as [|j p]; [exists []; split; [exists (T n (kids_of s e ts)); constructor|reflexivity]|]. apply exists_cons in EX as (c & E & EX).
      assert (J : j < List.length ts) by (apply nth_error_Some; congruence). apply (reached_cons s e j p _ J) in R as (A & C & R).
      destruct (IH c (nth_error_In _ _ E) (inner s j) (inner e j)) as [_ P2]; [eapply valid_inner; eauto|eapply valid_inner; eauto|]. destruct (proj1 (P2 p) (conj R EX)) as (q & EQ & ->).
      exists ((j - lo s) :: q). assert (JE : j - lo s + lo s = j) by lia. split; [|rewrite shifted_offs, JE; reflexivity]. apply exists_cons. exists (restrict (inner s j) (inner e j) c). split; [|exact EQ].
      apply kids_nth. rewrite JE. split; [unfold kid; now rewrite E|lia].
    + intros (q & EQ & ->). destruct q as [|i q]; [split; [apply reached_nil|exists (T n ts); constructor]|]. apply exists_cons in EQ as (m & E & EQ). apply KID in E as (c & E & -> & L).
      destruct (IH c (nth_error_In _ _ E) (inner s (i + lo s)) (inner e (i + lo s))) as [_ P2]; [eapply valid_inner; eauto|eapply valid_inner; eauto|].
      destruct (proj2 (P2 _) (ex_intro _ q (conj EQ eq_refl))) as [R EX]. rewrite shifted_offs. assert (J : i + lo s < List.length ts) by (apply nth_error_Some; congruence).
      split; [apply (reached_cons s e _ _ _ J); split; [lia|auto]|]. apply exists_cons. eauto.
Qed.

Lemma restrict_full : forall t, restrict None None t = t.
Proof.
  induction t as [n ts IH] using tree_ind2. rewrite restrict_eq by exact Logic.I. f_equal. rewrite Forall_forall in IH.
  unfold kids_of. cbn [lo hi]. replace (Z.to_nat _) with (List.length ts) by lia.
  assert (X : forall l k, (forall j c, nth_error l j = Some c -> nth_error ts (k + j) = Some c) -> map (kid None None ts) (seq k (List.length l)) = l).
  { induction l as [|c l IHl]; intros k H; [reflexivity|]. cbn [List.length seq map]. rewrite IHl; [|intros j c' E; specialize (H (S j) c' E); now rewrite Nat.add_succ_r in H]. f_equal.
    specialize (H 0 c eq_refl). rewrite Nat.add_0_r in H. unfold kid. rewrite H. apply IH. eapply nth_error_In; eauto. }
  apply X. auto.
Qed.
