(** Proofs about ranges: the iterators with their stack of levels. *)
From Coq Require Import List ZArith Bool PeanoNat Sorting.Sorted Lia ZifyBool ZifyNat.
From Verif Require Import Base Node_Model Node_Spec Node_Nav Range_Model Range_Spec Range_Proofs.
Import ListNotations.

(** ** Levels *)

(** The boundaries of a level, relative to its node. *)
Definition keeps_start (L : level) (s : option (list nat)) : Prop :=
  match truthy (l_start_trail L) with
  | Some st => s = Some (skipn (l_depth L) st) /\ l_depth L < List.length st
  | None => s = None \/ s = Some []
  end.
Definition keeps_end (L : level) (e : option (list nat)) : Prop := e = option_map (skipn (l_depth L)) (l_end_trail L).

Record good (L : level) (s e : option (list nat)) : Prop := {
  g_start : keeps_start L s;
  g_end : keeps_end L e;
  g_lo : l_start L = Z.of_nat (lo s);
  g_hi : l_end L = hi e (List.length (children (l_node L)));
  g_index : (-1 <= l_index L)%Z;
  g_vs : valid (l_node L) s;
  g_ve : valid (l_node L) e
}.

Lemma skipn_nth (l : list nat) d : match skipn d l with [] => nth_error l d = None | x :: r => nth_error l d = Some x /\ r = skipn (S d) l end.
Proof. revert l. induction d as [|d IH]; intros [|x l]; cbn; auto. specialize (IH l). destruct (skipn d l); auto. Qed.

Lemma truthy_some l r : truthy l = Some r -> l = Some r /\ r <> [].
Proof. destruct l as [[|x l]|]; cbn; try discriminate. intros [= <-]. split; [reflexivity|discriminate]. Qed.

Lemma new_level_good t st et d s e :
  match truthy st with Some l => s = Some (skipn d l) /\ d < List.length l | None => s = None \/ s = Some [] end -> e = option_map (skipn d) et -> valid t s -> valid t e ->
  exists L, new_level t st et d = Ok L /\ good L s e /\ l_node L = t /\ l_index L = (-1)%Z.
Proof.
  intros KS KE VS VE. unfold new_level. destruct (truthy st) as [l|] eqn:TR.
  - destruct KS as [-> LD]. pose proof (skipn_nth l d) as X. destruct (skipn d l) as [|x r] eqn:SK; [apply nth_error_None in X; lia|]. destruct X as [-> _]. cbn [bindr].
    eexists. split; [reflexivity|]. split; [|split; reflexivity]. split; cbn; auto; try lia.
    + unfold keeps_start. cbn. rewrite TR, SK. auto.
    + subst e. destruct et as [l2|]; cbn; [|reflexivity]. pose proof (skipn_nth l2 d) as X. destruct (skipn d l2); [now rewrite X|]. destruct X as [-> _]. reflexivity.
  - cbn [bindr]. eexists. split; [reflexivity|]. split; [|split; reflexivity]. split; cbn; auto; try lia.
    + unfold keeps_start. cbn. now rewrite TR.
    + destruct KS as [->| ->]; reflexivity.
    + subst e. destruct et as [l2|]; cbn; [|reflexivity]. pose proof (skipn_nth l2 d) as X. destruct (skipn d l2); [now rewrite X|]. destruct X as [-> _]. reflexivity.
Qed.

Lemma skipn_S_cons (l : list nat) d x r : skipn d l = x :: r -> skipn (S d) l = r.
Proof. intros E. pose proof (skipn_nth l d) as X. rewrite E in X. now destruct X as [_ ->]. Qed.

Lemma level_child_good L s e i c : good L s e -> nth_error (children (l_node L)) i = Some c ->
  exists L', level_child L (Z.of_nat i) = Ok L' /\ good L' (inner s i) (inner e i) /\ l_node L' = c /\ l_index L' = (-1)%Z.
Proof.
  intros G E. unfold level_child, item_at. rewrite Nat2Z.id, E. cbn [bindr].
  assert (EQ : exists n ts, l_node L = T n ts) by (destruct (l_node L) as [n ts]; eauto). destruct EQ as (n & ts & EN). rewrite EN in E. cbn [children] in E.
  pose proof (g_vs L s e G) as VS. pose proof (g_ve L s e G) as VE. rewrite EN in VS, VE.
  apply new_level_good; [| |eapply valid_inner; eauto|eapply valid_inner; eauto].
  - pose proof (g_start L s e G) as KS. unfold keeps_start in KS. destruct (truthy (l_start_trail L)) as [st|] eqn:TR.
    + destruct KS as [-> LD]. rewrite (g_lo L _ e G). destruct (skipn (l_depth L) st) as [|j r] eqn:SK.
      { pose proof (skipn_nth st (l_depth L)) as X. rewrite SK in X. apply nth_error_None in X. lia. }
      cbn [lo inner]. apply truthy_some in TR as [_ NE]. assert (SR := skipn_S_cons _ _ _ _ SK). assert (LR : List.length r = List.length st - S (l_depth L)) by (rewrite <- SR; apply skipn_length).
      destruct (Nat.eqb_spec i j) as [->|N].
      * rewrite Z.eqb_refl. cbn [andb]. destruct (Nat.ltb_spec (S (l_depth L)) (List.length st)).
        { destruct st; [congruence|]. cbn [truthy]. split; [now rewrite SR|assumption]. }
        { cbn [truthy]. right. destruct r; [reflexivity|cbn in LR; lia]. }
      * replace (Z.of_nat i =? Z.of_nat j)%Z with false by lia. cbn. now left.
    + cbn [truthy]. left. destruct KS as [->| ->]; reflexivity.
  - pose proof (g_end L s e G) as KE. pose proof (g_hi L s e G) as HI. unfold keeps_end in KE. destruct (l_end_trail L) as [et|]; cbn [option_map] in *; subst e; [|reflexivity].
    rewrite HI. destruct (skipn (l_depth L) et) as [|j r] eqn:SK; cbn [hi inner].
    + replace (Z.of_nat i =? -1)%Z with false by lia. reflexivity.
    + destruct (Nat.eqb_spec i j) as [->|N]; [rewrite Z.eqb_refl; cbn [option_map]; f_equal; symmetry; eapply skipn_S_cons; eauto|].
      replace (Z.of_nat i =? Z.of_nat j)%Z with false by lia. reflexivity.
Qed.

Lemma set_index_good L s e i : good L s e -> (-1 <= i)%Z -> good (set_index L i) s e.
Proof. intros [A1 A2 A3 A4 A5 A6 A7] H. split; auto. Qed.

(** The indices still to come. *)
Definition rem (rv : bool) (L : level) : list nat :=
  if rv then let from := if (l_index L =? -1)%Z then l_end L else (l_index L - 1)%Z in rev (seq (Z.to_nat (l_start L)) (Z.to_nat (from + 1 - l_start L)))
  else let from := if (l_index L =? -1)%Z then l_start L else (l_index L + 1)%Z in seq (Z.to_nat from) (Z.to_nat (l_end L + 1 - from)).

Definition step_level (rv : bool) (L : level) := (if rv then level_prev else level_next) L.

Lemma step_spec rv L s e : good L s e -> (rv = true -> l_index L <= l_end L + 1)%Z ->
  match rem rv L with
  | [] => step_level rv L = Ok None
  | i :: l => exists c, nth_error (children (l_node L)) i = Some c /\ step_level rv L = Ok (Some (c, set_index L (Z.of_nat i))) /\ rem rv (set_index L (Z.of_nat i)) = l /\ (Z.of_nat i <= l_end L)%Z
  end.
Proof.
  intros G BI. assert (HL : (l_end L < Z.of_nat (List.length (children (l_node L))))%Z).
  { rewrite (g_hi L s e G). pose proof (g_ve L s e G) as VE. destruct (l_node L) as [n ts]. now apply valid_hi with (n := n). }
  assert (SP : (0 <= l_start L)%Z) by (rewrite (g_lo L s e G); lia). pose proof (g_index L s e G) as IX. unfold step_level, rem. destruct rv.
  - specialize (BI eq_refl). unfold level_prev. set (from := if (l_index L =? -1)%Z then l_end L else (l_index L - 1)%Z).
    assert (FR : (from < Z.of_nat (List.length (children (l_node L))))%Z) by (unfold from; destruct (l_index L =? -1)%Z; lia).
    assert (FE : (from <= l_end L)%Z) by (unfold from; destruct (l_index L =? -1)%Z; lia).
    destruct (Z.to_nat (from + 1 - l_start L)) as [|k] eqn:K; cbn [rev].
    + replace (from <? l_start L)%Z with true by lia. reflexivity.
    + rewrite seq_S, rev_app_distr. cbn [rev app]. replace (from <? l_start L)%Z with false by lia.
      assert (FN : Z.to_nat from = Z.to_nat (l_start L) + k) by lia. unfold item_at. rewrite FN.
      destruct (nth_error (children (l_node L)) (Z.to_nat (l_start L) + k)) as [c|] eqn:E; [|apply nth_error_None in E; lia].
      exists c. split; [reflexivity|]. replace (Z.of_nat (Z.to_nat (l_start L) + k)) with from by lia. split; [reflexivity|]. cbn [l_index l_start l_end set_index].
      replace (from =? -1)%Z with false by lia. split; [|lia]. f_equal. f_equal. lia.
  - unfold level_next. set (from := if (l_index L =? -1)%Z then l_start L else (l_index L + 1)%Z).
    assert (FR : (0 <= from)%Z) by (unfold from; destruct (l_index L =? -1)%Z eqn:?; lia).
    destruct (Z.to_nat (l_end L + 1 - from)) as [|k] eqn:K; cbn [seq].
    + replace (l_end L <? from)%Z with true by lia. reflexivity.
    + replace (l_end L <? from)%Z with false by lia. unfold item_at.
      destruct (nth_error (children (l_node L)) (Z.to_nat from)) as [c|] eqn:E; [|apply nth_error_None in E; lia].
      exists c. split; [reflexivity|]. replace (Z.of_nat (Z.to_nat from)) with from by lia. split; [reflexivity|]. cbn [l_index l_start l_end set_index].
      replace (from =? -1)%Z with false by lia. split; [|lia]. f_equal; lia.
Qed.

Definition blk (rv : bool) (prune : nat -> bool) (s e : option (list nat)) (ts : list tree) (i : nat) : list nat :=
  match nth_error ts i with Some c => block rv prune s e i c | None => [] end.

Definition rest rv prune (L : level) s e : list nat := concat (map (blk rv prune s e (children (l_node L))) (rem rv L)).

(** A fresh level yields what is seen from its node. *)
Lemma filter_none {A} (f : A -> bool) l : (forall x, In x l -> f x = false) -> filter f l = [].
Proof. induction l as [|a l IH]; intros H; [reflexivity|]. cbn. rewrite H by (now left). apply IH. intros; apply H; now right. Qed.
Lemma filter_all {A} (f : A -> bool) l : (forall x, In x l -> f x = true) -> filter f l = l.
Proof. induction l as [|a l IH]; intros H; [reflexivity|]. cbn. rewrite H by (now left). f_equal. apply IH. intros; apply H; now right. Qed.

Definition ordn (rv : bool) (l : list nat) : list nat := if rv then rev l else l.

Lemma fseen_concat rv prune s e ts : forall l k, (forall j c, nth_error l j = Some c -> nth_error ts (k + j) = Some c) ->
  fseen rv prune s e (List.length ts) k l = concat (map (blk rv prune s e ts) (ordn rv (filter (within s e (List.length ts)) (seq k (List.length l))))).
Proof.
  induction l as [|c l IH]; intros k H; [destruct rv; reflexivity|]. cbn [fseen List.length seq filter]. rewrite IH; [|intros j c' E; specialize (H (S j) c' E); now rewrite Nat.add_succ_r in H].
  assert (E : blk rv prune s e ts k = block rv prune s e k c) by (unfold blk; specialize (H 0 c eq_refl); rewrite Nat.add_0_r in H; now rewrite H).
  destruct (within s e (List.length ts) k); unfold joined, ordn; destruct rv; cbn [rev map concat app]; try rewrite app_nil_r; auto.
  - rewrite map_app, concat_app. cbn [map concat]. now rewrite app_nil_r, E.
  - now rewrite E.
Qed.

Lemma seen_rest rv prune L s e : good L s e -> l_index L = (-1)%Z -> rest rv prune L s e = seen rv prune s e (l_node L).
Proof.
  intros G IX. unfold rest, rem. rewrite IX. cbn [Z.eqb]. pose proof (g_lo L s e G) as LO. pose proof (g_hi L s e G) as HI. pose proof (g_vs L s e G) as VS. pose proof (g_ve L s e G) as VE.
  destruct (l_node L) as [n ts]. cbn [children] in *. rewrite seen_eq, (fseen_concat rv prune s e ts ts 0) by auto. f_equal. f_equal.
  assert (X : filter (within s e (List.length ts)) (seq 0 (List.length ts)) = seq (lo s) (Z.to_nat (hi e (List.length ts) + 1 - Z.of_nat (lo s)))).
  { pose proof (valid_hi n ts e VE) as H1. pose proof (valid_lo n ts s VS) as H2. assert (LL : lo s <= List.length ts) by (destruct s as [[|i s]|]; cbn; lia).
    set (k := Z.to_nat (hi e (List.length ts) + 1 - Z.of_nat (lo s))). assert (K : lo s + k <= List.length ts) by lia.
    replace (List.length ts) with (lo s + (k + (List.length ts - lo s - k))) at 2 by lia. rewrite !seq_app, !filter_app. cbn [Nat.add].
    rewrite (filter_none _ (seq 0 (lo s))), (filter_all _ (seq (lo s) k)), (filter_none _ (seq (lo s + k) _)); [now rewrite app_nil_r| | |]; intros x J; apply in_seq in J; unfold within; lia. }
  rewrite X, LO, HI, Nat2Z.id. cbn [Pos.eqb]. rewrite Nat2Z.id. unfold ordn. destruct rv; reflexivity.
Qed.

(** ** The loops *)

Definition lvl rv prune (L : level) (out : list nat) : Prop := exists s e, good L s e /\ (rv = true -> l_index L <= l_end L + 1)%Z /\ out = rest rv prune L s e.

Lemma rest_step rv prune L s e i l : rem rv L = i :: l -> rem rv (set_index L (Z.of_nat i)) = l ->
  rest rv prune L s e = blk rv prune s e (children (l_node L)) i ++ rest rv prune (set_index L (Z.of_nat i)) s e.
Proof. intros E1 E2. unfold rest. cbn [l_node set_index]. now rewrite E1, E2. Qed.

Lemma leaf_seen rv prune s e t : children t = [] -> seen rv prune s e t = [].
Proof. destruct t as [n ts]. cbn [children]. intros ->. reflexivity. Qed.

(** One step of either loop. *)
Lemma loop_step rv prune st et L below out : lvl rv prune L out ->
  (out = [] /\ step rv (Range st et L below) = Ok None) \/
  (exists c out' L1, step rv (Range st et L below) = Ok (Some (c, Range st et L1 below)) /\ lvl rv prune L1 out' /\
     ((negb (prune (tid c)) && negb (List.length (children c) =? 0) = false /\ out = tid c :: out') \/
      (negb (prune (tid c)) && negb (List.length (children c) =? 0) = true /\
       exists L2 o2, enter (Range st et L1 below) = Ok (Range st et L2 (L1 :: below)) /\ lvl rv prune L2 o2 /\ out = tid c :: o2 ++ out'))).
Proof.
  intros (s & e & G & BI & ->). pose proof (step_spec rv L s e G BI) as SP. destruct (rem rv L) as [|i l] eqn:R.
  - left. split; [unfold rest; now rewrite R|]. unfold step. cbn [r_top]. unfold step_level in SP. now rewrite SP.
  - right. destruct SP as (c & E & ST & R2 & LE). exists c, (rest rv prune (set_index L (Z.of_nat i)) s e), (set_index L (Z.of_nat i)).
    assert (G1 : good (set_index L (Z.of_nat i)) s e) by (apply set_index_good; [exact G|lia]).
    split; [unfold step; cbn [r_top]; unfold step_level in ST; now rewrite ST|]. split; [exists s, e; split; [exact G1|]; split; [cbn; lia|reflexivity]|].
    rewrite (rest_step rv prune L s e i l R R2). unfold blk. rewrite E. unfold block.
    destruct (prune (tid c)) eqn:P; cbn [negb andb]; [left; auto|]. destruct (List.length (children c) =? 0) eqn:LC; cbn [negb].
    + left. split; [reflexivity|]. rewrite leaf_seen; [reflexivity|]. destruct (children c); [reflexivity|discriminate].
    + right. split; [reflexivity|]. destruct (level_child_good (set_index L (Z.of_nat i)) s e i c G1 E) as (L2 & E2 & G2 & N2 & I2).
      exists L2, (seen rv prune (inner s i) (inner e i) c). split.
      * unfold enter. cbn [r_top l_index set_index r_start_trail r_end_trail r_below]. replace (Z.of_nat i =? -1)%Z with false by lia. rewrite E2. reflexivity.
      * split; [exists (inner s i), (inner e i); split; [exact G2|]; split; [|rewrite <- N2; symmetry; now apply seen_rest]|reflexivity].
        rewrite I2, (g_hi _ _ _ G2). intros _. unfold hi. destruct (inner e i) as [[|]|]; lia.
Qed.

Lemma lvl_current rv prune L out : lvl rv prune L out -> (0 <= l_index L <= l_end L)%Z -> exists c, item_at (l_node L) (l_index L) = Ok c.
Proof.
  intros (s & e & G & _ & _) I. pose proof (g_ve L s e G) as VE. pose proof (g_hi L s e G) as HI. unfold item_at. destruct (l_node L) as [n ts]. cbn [children] in *.
  pose proof (valid_hi n ts e VE). destruct (nth_error ts (Z.to_nat (l_index L))) as [c|] eqn:E; [eauto|]. apply nth_error_None in E. lia.
Qed.

(** The levels below the top are at an existing child. *)
Definition at_child (L : level) : Prop := (0 <= l_index L)%Z /\ exists c, item_at (l_node L) (l_index L) = Ok c.

Lemma walk_out rv prune st et : forall fuel L below outs, Forall2 (lvl rv prune) (L :: below) outs -> Forall at_child below ->
  2 * List.length (concat outs) + List.length below < fuel ->
  exists r, walk_range fuel rv prune None (Range st et L below) = Ok (concat outs, r).
Proof.
  induction fuel as [|fuel IH]; intros L below outs F FA LE; [lia|]. inversion F as [|? out ? outs' LV F']; subst. cbn [concat] in *. rewrite app_length in LE. cbn [walk_range].
  destruct (loop_step rv prune st et L below out LV) as [[-> ->]|(c & out' & L1 & -> & LV1 & ALT)]; cbn [bindr].
  - cbn [app]. unfold leave. cbn [r_below]. destruct below as [|b below]; [inversion F'; subst; cbn [Nat.eqb]; eauto|].
    cbn [List.length Nat.eqb]. inversion_clear FA as [|? ? [I0 [c C]] FA']. unfold current. cbn [r_top].
    replace (l_index b =? -1)%Z with false by lia. rewrite C. cbn [bindr same]. apply IH; auto. cbn [List.length app] in LE. lia.
  - destruct ALT as [[-> ->]|(-> & L2 & o2 & E2 & LV2 & ->)].
    + cbn [bindr]. destruct (IH L1 below (out' :: outs')) as [r X]; [now constructor|exact FA|cbn [concat List.length] in *; rewrite app_length; lia|]. rewrite X. cbn [bindr concat app]. eauto.
    + rewrite E2. cbn [bindr]. destruct (IH L2 (L1 :: below) (o2 :: out' :: outs')) as [r X].
      * constructor; [exact LV2|]. now constructor.
      * constructor; [|exact FA]. assert (IN : enter (Range st et L1 below) = Ok (Range st et L2 (L1 :: below))) by exact E2.
        unfold enter in IN. cbn [r_top] in IN. destruct (l_index L1 =? -1)%Z eqn:IX; [injection IN as _ IN; exfalso; apply (f_equal (@List.length level)) in IN; cbn in IN; lia|].
        destruct LV1 as (s & e & G & _). pose proof (g_index L1 s e G). split; [lia|]. unfold level_child in IN. destruct (item_at (l_node L1) (l_index L1)) as [x|]; [eauto|discriminate].
      * cbn [concat List.length] in *. rewrite !app_length in *. lia.
      * rewrite X. cbn [bindr concat app]. rewrite <- app_assoc. eauto.
Qed.

Definition finish (st et : option (list nat)) (base : list level) (r : range) : Prop := match base with b :: bs => r = Range st et b bs | [] => r_below r = [] end.

Lemma descend_out rv prune st et base : forall fuel L mids outs, Forall2 (lvl rv prune) (L :: mids) outs -> 
  2 * List.length (concat outs) + List.length mids < fuel ->
  exists r, descend fuel rv prune (List.length base) (Range st et L (mids ++ base)) = Ok (concat outs, r) /\ finish st et base r.
Proof.
  induction fuel as [|fuel IH]; intros L mids outs F LE; [lia|]. inversion F as [|? out ? outs' LV F']; subst. cbn [concat] in *. rewrite app_length in LE. cbn [descend].
  destruct (loop_step rv prune st et L (mids ++ base) out LV) as [[-> ->]|(c & out' & L1 & -> & LV1 & ALT)]; cbn [bindr].
  - cbn [app]. unfold leave. cbn [r_below]. destruct mids as [|b mids].
    + inversion F'; subst. cbn [app]. destruct base as [|b bs]; [cbn; eexists; split; [reflexivity|reflexivity]|]. cbn [r_start_trail r_end_trail]. rewrite Nat.eqb_refl. eexists. split; reflexivity.
    + cbn [app List.length]. replace (S (List.length (mids ++ base)) =? List.length base) with false by (rewrite app_length; lia). apply IH; auto. cbn [List.length app] in LE. lia.
  - destruct ALT as [[-> ->]|(-> & L2 & o2 & E2 & LV2 & ->)].
    + cbn [bindr]. destruct (IH L1 mids (out' :: outs')) as (r & X & FN); [now constructor|cbn [concat List.length] in *; rewrite app_length; lia|]. rewrite X. cbn [bindr concat app]. eauto.
    + rewrite E2. cbn [bindr]. destruct (IH L2 (L1 :: mids) (o2 :: out' :: outs')) as (r & X & FN).
      * constructor; [exact LV2|]. now constructor.
      * cbn [concat List.length] in *. rewrite !app_length in *. lia.
      * cbn [app] in X. rewrite X. cbn [bindr concat app]. rewrite <- app_assoc. eauto.
Qed.

(** ** Going to the start node *)

Fixpoint inners (e : option (list nat)) (s : list nat) : option (list nat) := match s with [] => e | i :: s => inners (inner e i) s end.

(** What comes after the start node, per level, deepest first. *)
Fixpoint afters (prune : nat -> bool) (s : list nat) (e : option (list nat)) (t : tree) : list (list nat) :=
  match s with
  | [] => []
  | i :: s' =>
      let ts := children t in
      match nth_error ts i with
      | Some c => afters prune s' (inner e i) c ++ [concat (map (blk false prune (Some s) e ts) (seq (S i) (Z.to_nat (hi e (List.length ts) - Z.of_nat i))))]
      | None => []
      end
  end.

Lemma inner_none i : inner None i = None. Proof. reflexivity. Qed.

Lemma good_rel L e s0 : good L (Some []) e -> s0 = None -> good L s0 e.
Proof. intros [A1 A2 A3 A4 A5 A6 A7] ->. split; auto; [|exact Logic.I]. unfold keeps_start in *. destruct (truthy (l_start_trail L)) as [st|]; [|now left]. destruct A1 as [X Y]. injection X as X. pose proof (skipn_length (l_depth L) st) as Z. rewrite <- X in Z. cbn in Z. lia. Qed.

Lemma go_down_spec prune st et : forall s t e L below outs, s <> [] -> good L (Some s) e -> l_node L = t ->
  Forall2 (lvl false prune) below outs -> Forall at_child below ->
  exists L' below' c, go_down (Range st et L below) s = Ok (Range st et L' below') /\ reach t s c /\ current (Range st et L' below') = Ok c /\
    Forall2 (lvl false prune) (L' :: below') (afters prune s e t ++ outs) /\ Forall at_child below' /\
    (exists L2, enter (Range st et L' below') = Ok (Range st et L2 (L' :: below')) /\ good L2 None (inners e s) /\ l_node L2 = c /\ l_index L2 = (-1)%Z) /\ at_child L' /\
    List.length below' + 1 = List.length s + List.length below.
Proof.
  induction s as [|i s IH]; intros t e L below outs NE G EN F FA; [congruence|]. assert (VS := g_vs L _ e G). rewrite EN in VS. destruct t as [n ts]. cbn [valid] in VS.
  apply exists_cons in VS as (c & E & VC). set (L1 := set_index L (Z.of_nat i)). assert (G1 : good L1 (Some (i :: s)) e) by (apply set_index_good; [exact G|lia]).
  assert (E1 : nth_error (children (l_node L1)) i = Some c) by (cbn [L1 set_index l_node]; now rewrite EN).
  destruct (level_child_good L1 _ e i c G1 E1) as (L2 & C2 & G2 & N2 & I2). cbn [inner] in G2. rewrite Nat.eqb_refl in G2. fold (inner e i) in G2.
  assert (LV : lvl false prune L1 (concat (map (blk false prune (Some (i :: s)) e ts) (seq (S i) (Z.to_nat (hi e (List.length ts) - Z.of_nat i)))))).
  { exists (Some (i :: s)), e. split; [exact G1|]. split; [discriminate|]. unfold rest, rem. cbn [L1 set_index l_node l_index l_start l_end]. rewrite EN. cbn [children].
    replace (Z.of_nat i =? -1)%Z with false by lia. pose proof (g_hi L _ e G) as HI. rewrite EN in HI. cbn [children] in HI. rewrite HI. f_equal. f_equal. f_equal; lia. }
  assert (AC : at_child L1) by (split; [cbn; lia|]; cbn [L1 set_index l_node l_index]; rewrite EN; unfold item_at; rewrite Nat2Z.id; cbn [children]; rewrite E; eauto).
  cbn [go_down afters children]. rewrite E. cbn [with_top r_top r_start_trail r_end_trail r_below]. fold L1. destruct s as [|j s].
  - exists L1, below, c. split; [reflexivity|]. split; [econstructor; [exact E|constructor]|]. split.
    { unfold current. cbn [r_top L1 set_index l_index l_node]. replace (Z.of_nat i =? -1)%Z with false by lia. rewrite EN. unfold item_at. rewrite Nat2Z.id. cbn [children]. now rewrite E. }
    split; [cbn [afters app]; now constructor|]. split; [exact FA|]. split.
    { exists L2. split; [unfold enter; cbn [r_top L1 set_index l_index]; replace (Z.of_nat i =? -1)%Z with false by lia; fold L1; cbn [l_index L1 set_index] in C2; rewrite C2; reflexivity|]. cbn [inners].
      split; [now apply (good_rel L2 _ None)|auto]. }
    split; [exact AC|]. cbn. lia.
  - cbn [l_index L1 set_index]. fold L1. rewrite C2. cbn [bindr].
    destruct (IH c (inner e i) L2 (L1 :: below) (concat (map (blk false prune (Some (i :: j :: s)) e ts) (seq (S i) (Z.to_nat (hi e (List.length ts) - Z.of_nat i)))) :: outs)) as (L' & b' & m & X1 & X2 & X3 & X4 & X5 & X6 & X7 & X8);
      [discriminate|exact G2|exact N2|now constructor|now constructor|].
    exists L', b', m. split; [exact X1|]. split; [econstructor; eauto|]. split; [exact X3|]. split; [rewrite <- app_assoc; exact X4|]. split; [exact X5|]. split; [exact X6|]. split; [exact X7|]. cbn [List.length] in *. lia.
Qed.

(** ** nodes() *)

Definition listed_from (prune : nat -> bool) (s : list nat) (e : option (list nat)) (t c : tree) : list nat :=
  (tid c :: if prune (tid c) then [] else seen false prune None (inners e s) c) ++ concat (afters prune s e t).

Lemma fresh_range t s e : valid t s -> valid t e -> exists L, new_range t s e = Ok (Range s e L []) /\ good L s e /\ l_node L = t /\ l_index L = (-1)%Z.
Proof.
  intros VS VE. unfold new_range. destruct (new_level_good t s e 0 s e) as (L & E & G & N & I); auto.
  - destruct s as [[|x s]|]; cbn; auto. split; [reflexivity|lia].
  - destruct e; reflexivity.
  - rewrite E. exists L. repeat split; auto; apply G.
Qed.

Lemma nodes_spec prune t s e : s <> [] -> valid t (Some s) -> valid t e ->
  exists f0 c r, reach t s c /\ new_range t (Some s) e = Ok r /\ forall fuel, f0 <= fuel -> exists r', range_nodes fuel prune r = Ok (listed_from prune s e t c, r').
Proof.
  intros NE VS VE. destruct (fresh_range t (Some s) e VS VE) as (L & E & G & N & IX).
  destruct (go_down_spec prune (Some s) e s t e (set_index L (-1)) [] [] NE) as (L' & b' & c & X1 & X2 & X3 & X4 & X5 & (L2 & X6 & G2 & N2 & I2) & X7 & X8); auto.
  { apply set_index_good; [exact G|lia]. }
  exists (2 * List.length (seen false prune None (inners e s) c) + 2 * List.length (concat (afters prune s e t)) + List.length s + 5), c, (Range (Some s) e L []).
  split; [exact X2|]. split; [exact E|]. intros fuel LF. unfold range_nodes, goto_trail. cbn [r_start_trail]. unfold reset, base_level. cbn [r_below r_top List.last r_start_trail r_end_trail].
  rewrite X1. cbn [bindr r_start_trail]. destruct s as [|i s]; [congruence|]. cbn [truthy]. rewrite X3. cbn [bindr]. unfold listed_from. rewrite app_nil_r in X4. cbn [List.length Nat.add] in *.
  assert (WALK : exists r, walk_range fuel false prune None (Range (Some (i :: s)) e L' b') = Ok (concat (afters prune (i :: s) e t), r)).
  { apply walk_out; [exact X4|exact X5|]. lia. }
  destruct WALK as [r' W]. destruct (prune (tid c)) eqn:P; cbn [negb andb bindr].
  - rewrite W. cbn. eauto.
  - destruct (List.length (children c) =? 0) eqn:LC; cbn [negb bindr].
    + rewrite W. rewrite leaf_seen by (destruct (children c); [reflexivity|discriminate]). cbn. eauto.
    + unfold range_descendants. rewrite X6. cbn [bindr r_below].
      destruct (descend_out false prune (Some (i :: s)) e (L' :: b') fuel L2 [] [seen false prune None (inners e (i :: s)) c]) as (r2 & D & FN).
      * constructor; [|constructor]. exists None, (inners e (i :: s)). split; [exact G2|]. split; [discriminate|]. rewrite <- N2. symmetry. now apply seen_rest.
      * cbn [concat List.length]. rewrite app_nil_r. lia.
      * cbn [app List.length] in D. cbn [List.length]. rewrite D. cbn [bindr]. cbn [finish] in FN. subst r2. rewrite W. cbn [bindr concat]. rewrite app_nil_r. cbn. eauto.
Qed.

Lemma nodes_spec_none prune t s e : s = None \/ s = Some [] -> valid t e ->
  exists f0 r, new_range t s e = Ok r /\ forall fuel, f0 <= fuel -> exists r', range_nodes fuel prune r = Ok (seen false prune None e t, r').
Proof.
  intros HS VE. assert (VS : valid t s) by (destruct HS as [->| ->]; [exact Logic.I|exists t; constructor]). destruct (fresh_range t s e VS VE) as (L & E & G & N & IX).
  assert (G' : good L None e) by (destruct HS as [->| ->]; [exact G|now apply (good_rel L e None)]).
  exists (2 * List.length (seen false prune None e t) + 1), (Range s e L []). split; [exact E|]. intros fuel LF. unfold range_nodes.
  assert (GT : goto_trail (Range s e L []) (r_start_trail (Range s e L [])) = Ok (Range s e (set_index L (-1)) [])) by (destruct HS as [->| ->]; reflexivity).
  rewrite GT. cbn [bindr r_start_trail]. assert (TR : truthy s = None) by (destruct HS as [->| ->]; reflexivity). rewrite TR. cbn [bindr].
  destruct (walk_out false prune s e fuel (set_index L (-1)) [] [seen false prune None e t]) as [r W]; auto.
  - constructor; [|constructor]. exists None, e. assert (G2 : good (set_index L (-1)) None e) by (apply set_index_good; [exact G'|lia]). split; [exact G2|]. split; [discriminate|].
    rewrite <- N. change (l_node L) with (l_node (set_index L (-1))). symmetry. apply seen_rest; [exact G2|reflexivity].
  - cbn [concat List.length]. rewrite app_nil_r. lia.
  - rewrite W. cbn [bindr concat]. rewrite app_nil_r. cbn. eauto.
Qed.

(** descendants() of a new range. *)
Lemma descendants_fresh rv prune t s e : valid t s -> valid t e ->
  exists f0 r, new_range t s e = Ok r /\ forall fuel, f0 <= fuel -> exists r', range_descendants fuel rv prune r = Ok (seen rv prune s e t, r').
Proof.
  intros VS VE. destruct (fresh_range t s e VS VE) as (L & E & G & N & IX). exists (2 * List.length (seen rv prune s e t) + 1), (Range s e L []). split; [exact E|].
  intros fuel LF. unfold range_descendants, enter. cbn [r_top]. rewrite IX. cbn [Z.eqb Pos.eqb bindr r_below].
  destruct (descend_out rv prune s e [] fuel L [] [seen rv prune s e t]) as (r & D & _).
  - constructor; [|constructor]. exists s, e. split; [exact G|]. split; [rewrite IX, (g_hi L s e G); unfold hi; destruct e as [[|]|]; lia|]. rewrite <- N. symmetry. now apply seen_rest.
  - cbn [concat List.length]. rewrite app_nil_r. lia.
  - cbn [app List.length] in D. cbn [List.length]. rewrite D. cbn [concat]. rewrite app_nil_r. eauto.
Qed.
