(** Proofs about walking through a range: forward(), backward(), children() and ancestors(). *)
From Coq Require Import List ZArith Bool PeanoNat Sorting.Sorted Lia ZifyBool ZifyNat.
From Verif Require Import Base Node_Model Node_Spec Node_Nav Range_Model Range_Spec Range_Proofs Range_Machine Range_Extract Range_Member Rangenav_Model Rangenav_Spec Rangenav_Proofs.
Import ListNotations.

(** ** Lists of nodes *)

Lemma lists_app t ord P Q ys zs : lists t ord P ys -> lists t ord Q zs -> (forall p q, P p -> Q q -> ord p q) -> lists t ord (fun p => P p \/ Q p) (ys ++ zs).
Proof.
  intros (ps & F1 & S1 & I1) (qs & F2 & S2 & I2) O. exists (ps ++ qs). split; [now apply Forall2_app|]. split.
  - apply SS_app; auto. intros x y X Y. apply I1 in X as [X _]. apply I2 in Y as [Y _]. auto.
  - intros p. rewrite in_app_iff, I1, I2. tauto.
Qed.
Lemma lists_ext t ord (P Q : list nat -> Prop) ys : (forall p, exists_at t p -> (P p <-> Q p)) -> lists t ord P ys -> lists t ord Q ys.
Proof. intros H (ps & F & S & I). exists ps. split; [exact F|]. split; [exact S|]. intros p. rewrite I. split; intros [X E]; (split; [|exact E]); now apply H. Qed.
Lemma lists_nil t ord (P : list nat -> Prop) : (forall p, exists_at t p -> ~ P p) -> lists t ord P [].
Proof. intros H. exists []. split; [constructor|]. split; [constructor|]. intros p. split; [intros []|intros [X E]; now apply (H p)]. Qed.
Lemma lists_prefix t q n rv (P : list nat -> Prop) ys : reach t q n -> lists n (ordr rv) P ys -> lists t (ordr rv) (fun p => exists x, p = q ++ x /\ P x) ys.
Proof.
  intros R (ps & F & S & I). exists (map (app q) ps). split; [|split].
  - clear S I. induction F as [|p y ps ys (m & M & T) F IH]; cbn [map]; constructor; [|exact IH]. exists m. split; [now apply (reach_app t q n p m R)|exact T].
  - apply SS_map; [|exact S]. intros x y. apply ordr_prefix.
  - intros p. rewrite in_map_iff. split.
    + intros (x & <- & X). apply I in X as [X E]. split; [eauto|]. now apply (exists_app t q n x R).
    + intros [(x & -> & X) E]. exists x. split; [reflexivity|]. apply I. split; [exact X|]. now apply (exists_app t q n x R).
Qed.

(** ** One level *)

Definition shown (n : tree) (s e : option (list nat)) (prune : nat -> bool) (p : list nat) : Prop := reached s e p /\ ~ skipped n (fun q => q <> [] /\ reached s e q) prune p.

Lemma block_lists rv prune s e n ts j c : nth_error ts j = Some c -> within s e (List.length ts) j = true ->
  lists (T n ts) (ordr rv) (fun p => (exists x, p = j :: x) /\ shown (T n ts) s e prune p) (block rv prune s e j c).
Proof.
  intros E W. exists (pblock rv prune s e j c). split; [|split].
  - unfold pblock, block. cbn [map]. constructor; [exists c; split; [econstructor; [exact E|constructor]|reflexivity]|]. destruct (prune (tid c)); [constructor|].
    pose proof (spaths_seen rv prune c (inner s j) (inner e j)) as F. induction F as [|p y ps ys H F IH]; cbn [map]; constructor; [|exact IH]. now apply (points_cons n ts j c).
  - unfold pblock. apply SS_map; [apply ordr_cons|]. constructor; [destruct (prune (tid c)); [constructor|apply spaths_sorted]|]. rewrite Forall_forall. intros q Q. destruct (prune (tid c)); [destruct Q|].
    apply spaths_In in Q as [[NE _] _]. destruct q as [|x q]; [congruence|]. destruct rv; left; apply above_nil.
  - intros p. assert (X : In p (pblock rv prune s e j c) <-> (exists x, p = j :: x) /\ In p (spaths rv prune s e (T n ts))).
    { rewrite spaths_eq, fpaths_In. unfold pblock. rewrite in_map_iff. split.
      - intros (x & <- & X). split; [eauto|]. exists j, c, x. split; [reflexivity|]. split; [exact E|]. split; [exact W|]. destruct X as [<-|X]; [now left|right]. destruct (prune (tid c)); [destruct X|auto].
      - intros [(x & ->) (j' & c' & x' & EQ & E' & _ & X)]. cbn [Nat.add] in *. injection EQ as -> ->. assert (c' = c) by congruence. subst c'. exists x'. split; [reflexivity|]. destruct X as [->|[-> X]]; [now left|now right]. }
    rewrite X, spaths_In. unfold shown. split; [tauto|]. intros [[(x & ->) [R NS]] EX]. split; [eauto|]. split; [|exact EX]. split; [discriminate|auto].
Qed.

Lemma past_ordr rv i j x y : past rv i j -> ordr rv (i :: x) (j :: y).
Proof. unfold past. destruct rv; cbn [ordr]; intros H; right; now apply left_of_lt. Qed.

Lemma blocks_lists rv prune s e n ts : forall l, StronglySorted (past rv) l -> (forall j, In j l -> within s e (List.length ts) j = true /\ j < List.length ts) ->
  lists (T n ts) (ordr rv) (fun p => (exists j x, p = j :: x /\ In j l) /\ shown (T n ts) s e prune p) (concat (map (blk rv prune s e ts) l)).
Proof.
  induction l as [|j l IH]; intros SO H; cbn [map concat].
  - apply lists_nil. intros p _ [(j & x & _ & []) _].
  - apply StronglySorted_inv in SO as [SO F]. rewrite Forall_forall in F. destruct (H j (or_introl eq_refl)) as [W J]. unfold blk at 1. destruct (nth_error ts j) as [c|] eqn:E; [|apply nth_error_None in E; lia].
    eapply lists_ext; [|apply lists_app; [apply (block_lists rv prune s e n ts j c E W)|apply IH; [exact SO|intros; apply H; now right]|]].
    + intros p _. cbn beta. split; [intros [[(x & ->) S]|[(k & x & -> & K) S]]; (split; [|exact S]); do 2 eexists; split; try reflexivity; [now left|now right]|].
      intros [(k & x & -> & [->|K]) S]; [left|right]; (split; [|exact S]); eauto.
    + intros p q [(x & ->) _] [(k & y & -> & K) _]. apply past_ordr, F, K.
Qed.

Lemma rest_lists rv prune L s e : good L s e -> (l_index L = -1 \/ l_start L <= l_index L <= l_end L)%Z ->
  lists (l_node L) (ordr rv) (fun p => (exists j x, p = j :: x /\ In j (rem rv L)) /\ shown (l_node L) s e prune p) (rest rv prune L s e).
Proof.
  intros G I. assert (H : forall j, In j (rem rv L) -> within s e (List.length (children (l_node L))) j = true) by (intros j J; now apply (rem_spec rv L s e j G I) in J as [W _]).
  pose proof (g_ve _ _ _ G) as VE. unfold rest. destruct (l_node L) as [n ts]. cbn [children] in *. apply blocks_lists; [apply rem_sorted|]. intros j J. specialize (H j J). split; [exact H|].
  pose proof (valid_hi n ts e VE). unfold within in H. lia.
Qed.

(** ** The stack *)

Definition sideways (rv : bool) (p q : list nat) : Prop := if rv then left_of q p else left_of p q.

Lemma left_of_app_r q x p : left_of p q -> left_of p (q ++ x).
Proof. intros (z & i & j & r & s & -> & -> & L). exists z, i, j, r, (s ++ x). split; [reflexivity|]. split; [now rewrite <- app_assoc|exact L]. Qed.
Lemma left_of_app2 p x q : left_of p q -> left_of (p ++ x) q.
Proof. intros (z & i & j & r & s & -> & -> & L). exists z, i, j, (r ++ x), s. split; [now rewrite <- app_assoc|]. split; [reflexivity|exact L]. Qed.
Lemma left_of_nil_l p : ~ left_of [] p. Proof. intros (z & i & j & r & s & E & _). destruct z; discriminate. Qed.
Lemma left_of_nil_r p : ~ left_of p []. Proof. intros (z & i & j & r & s & _ & E & _). destruct z; discriminate. Qed.
Lemma left_of_cons2 i a j b : left_of (i :: a) (j :: b) <-> i < j \/ i = j /\ left_of a b.
Proof.
  split.
  - intros (z & x & y & r & s & E1 & E2 & L). destruct z as [|k z]; cbn [app] in *; injection E1 as -> ->; injection E2 as -> ->; [now left|]. right. split; [reflexivity|]. exists z, x, y, r, s. auto.
  - intros [L|[-> H]]; [now apply left_of_lt|now apply left_of_cons].
Qed.
Lemma left_of_app_both u a c : left_of (u ++ a) (u ++ c) <-> left_of a c.
Proof. induction u as [|k u IH]; cbn [app]; [reflexivity|]. rewrite left_of_cons2, IH. split; [intros [H|[_ H]]; [lia|exact H]|auto]. Qed.
Lemma sideways_snoc rv q i x : sideways rv (q ++ [i]) x <-> sideways rv q x \/ exists j y, x = q ++ j :: y /\ past rv i j.
Proof.
  revert x. induction q as [|k q IH]; intros x; cbn [app].
  - unfold sideways, past. destruct x as [|j x].
    + split; [destruct rv; intros H; [now apply left_of_nil_l in H|now apply left_of_nil_r in H]|]. intros [H|(j & y & E & _)]; [destruct rv; [now apply left_of_nil_l in H|now apply left_of_nil_r in H]|discriminate].
    + destruct rv; rewrite left_of_cons2; (split; [intros [H|[_ H]]; [right; eauto|]|intros [H|(j' & y & E & H)]; [|injection E as -> ->; auto]]);
        try (now apply left_of_nil_l in H); try (now apply left_of_nil_r in H).
  - unfold sideways, past in *. destruct x as [|j x].
    + split; [destruct rv; intros H; [now apply left_of_nil_l in H|now apply left_of_nil_r in H]|]. intros [H|(j & y & E & _)]; [destruct rv; [now apply left_of_nil_l in H|now apply left_of_nil_r in H]|discriminate].
    + specialize (IH x). destruct rv; rewrite !left_of_cons2, IH; (split; [intros [H|[-> [H|(j' & y & -> & H)]]]; eauto 8|intros [[H|[-> H]]|(j' & y & E & H)]; [auto|auto|injection E as -> ->; right; split; [reflexivity|]; eauto]]).
Qed.
Lemma sideways_not_below rv q x : ~ sideways rv q (q ++ x).
Proof.
  induction q as [|k q IH]; cbn [app]; unfold sideways in *; intros H; [destruct rv; [now apply left_of_nil_r in H|now apply left_of_nil_l in H]|].
  destruct rv; apply left_of_cons2 in H as [H|[_ H]]; try lia; now apply IH.
Qed.
Lemma sideways_up rv q x y : sideways rv q x -> above x y -> sideways rv q y.
Proof. intros H (k & r & ->). unfold sideways in *. destruct rv; [now apply left_of_app2|now apply left_of_app_r]. Qed.
Lemma sideways_ordr rv q x y : sideways rv q y -> ordr rv (q ++ x) y.
Proof. unfold sideways. destruct rv; cbn [ordr]; intros H; right; [now apply left_of_app_r|now apply left_of_app2]. Qed.

Definition visible (t : tree) (s e : option (list nat)) (prune : nat -> bool) (R : list nat -> Prop) (x : list nat) : Prop :=
  R x /\ reached s e x /\ ~ skipped t (fun y => R y /\ reached s e y) prune x.

Lemma visible_ext t s e prune R R' x : (forall y, exists_at t y -> reached s e y -> (R y <-> R' y)) -> exists_at t x -> (visible t s e prune R x <-> visible t s e prune R' x).
Proof.
  intros H EX. unfold visible, skipped. split; intros (A & B & C); (split; [now apply (H x EX B)|]; split; [exact B|]); intros (q & m & AB & [RQ RE] & M & P); apply C; exists q, m; (split; [exact AB|]; split; [|auto]; split; [|exact RE]); apply (H q); auto; now exists m.
Qed.

Lemma above_app q a b : above (q ++ a) (q ++ b) <-> above a b.
Proof. split; intros (x & r & E); exists x, r; [rewrite <- app_assoc in E; now apply app_inv_head in E|now rewrite E, <- app_assoc]. Qed.

(** The level and what the levels under it have. *)
Lemma combine rv prune t s e q n s' e' (K : nat -> Prop) ys zs : reach t q n -> s' = inners s q -> e' = inners e q -> reached s e q ->
  lists n (ordr rv) (fun p => (exists j x, p = j :: x /\ K j) /\ shown n s' e' prune p) ys ->
  lists t (ordr rv) (visible t s e prune (sideways rv q)) zs ->
  lists t (ordr rv) (visible t s e prune (fun x => sideways rv q x \/ exists j y, x = q ++ j :: y /\ K j)) (ys ++ zs).
Proof.
  intros R S1 E1 RQ LY LZ. assert (REQ : forall x, exists_at n x -> (reached s e (q ++ x) <-> reached s' e' x)).
  { intros x X. subst s' e'. apply (reached_inners s e q x t); [now apply (exists_app t q n x R)|exact RQ]. }
  eapply lists_ext; [|apply lists_app; [apply (lists_prefix t q n rv _ ys R LY)|exact LZ|]].
  - intros x EX. cbn beta. split.
    + intros [(z & -> & (j & y & -> & KJ) & RE & NS)|(SX & RE & NS)].
      * apply (exists_app t q n _ R) in EX. split; [right; eauto|]. split; [now apply REQ|]. intros (w & m & A & [RW RWE] & M & P). apply NS. destruct RW as [RW|(j' & y' & -> & KJ')].
        -- exfalso. apply (sideways_not_below rv q (j :: y)). eapply sideways_up; eauto.
        -- exists (j' :: y'), m. split; [exact (proj1 (above_app _ _ _) A)|]. apply (reach_app t q n _ m R) in M. split; [|auto]. split; [discriminate|]. apply REQ; [now exists m|exact RWE].
      * split; [now left|]. split; [exact RE|]. intros (w & m & A & [RW RWE] & M & P). destruct RW as [RW|(j' & y' & -> & KJ')]; [apply NS; exists w, m; auto|].
        exfalso. destruct A as (k & z & ->). rewrite <- app_assoc in SX. now apply sideways_not_below in SX.
    + intros ([SX|(j & y & -> & KJ)] & RE & NS).
      * right. split; [exact SX|]. split; [exact RE|]. intros (w & m & A & [RW RWE] & M & P). apply NS. exists w, m. auto.
      * left. exists (j :: y). split; [reflexivity|]. apply (exists_app t q n _ R) in EX. split; [eauto|]. split; [now apply REQ|]. intros (w & m & A & [NW RW] & M & P). apply NS. exists (q ++ w), m.
        split; [now apply above_app|]. split; [|split; [now apply (reach_app t q n w m R)|exact P]]. destruct w as [|k w]; [congruence|]. apply above_cons2 in A as [-> A]. split; [right; eauto|]. apply REQ; [now exists m|exact RW].
  - intros x y (z & -> & _) (SY & _). now apply sideways_ordr.
Qed.

Lemma stack_lists rv prune t s e q n s' e' below : valid t s -> valid t e -> inside_at t s e q n s' e' below ->
  exists outs, Forall2 (lvl rv prune) below outs /\ lists t (ordr rv) (visible t s e prune (sideways rv q)) (concat outs).
Proof.
  intros VS VE IN. induction IN as [|q n s' e' below L i c IN (outs & F & LS) G N IX C W].
  - exists []. split; [constructor|]. apply lists_nil. intros p _ (S & _). unfold sideways in S. destruct rv; [now apply left_of_nil_r in S|now apply left_of_nil_l in S].
  - destruct (inside_facts t s e q n s' e' below VS VE IN) as (R & S1 & E1 & RE & V1 & V2 & LN & TR).
    assert (P : placed q n s' e' L (q ++ [i]) false) by (exists i; auto). destruct (placed_bound q n s' e' L _ _ G N P) as [BL BE].
    exists (rest rv prune L s' e' :: outs). split; [constructor; [exists s', e'; split; [exact G|]; split; [lia|reflexivity]|exact F]|]. cbn [concat].
    eapply lists_ext; [|eapply (combine rv prune t s e q n s' e' (fun j => In j (rem rv L))); [exact R|exact S1|exact E1|exact RE|rewrite <- N; exact (rest_lists rv prune L s' e' G BL)|exact LS]].
    + intros p EX. apply visible_ext; [|exact EX]. intros y EY RY. rewrite sideways_snoc. split.
      * intros [H|(j & z & -> & J)]; [auto|right]. apply (rem_spec rv L s' e' j G BL) in J as [_ J]. exists j, z. split; [reflexivity|]. unfold past. rewrite IX in J. destruct rv; lia.
      * intros [H|(j & z & -> & J)]; [auto|right]. exists j, z. split; [reflexivity|]. apply (rem_spec rv L s' e' j G BL). split; [|right; unfold past in J; rewrite IX; destruct rv; lia].
        apply (exists_app t q n _ R) in EY. subst s' e'. apply (reached_inners s e q (j :: z) t) in RY; [|now apply (exists_app t q n _ R)|exact RE]. rewrite N. destruct n as [k ts]. apply exists_cons in EY as (d & D & _).
        assert (J' : j < List.length ts) by (apply nth_error_Some; congruence). now apply (within_reached _ _ _ j z J') in RY as [WJ _].
Qed.

(** From a place on: what the top level and the levels under it have. *)
Lemma place_lists rv prune t s e q n s' e' below L p b : valid t s -> valid t e -> inside_at t s e q n s' e' below -> good L s' e' -> l_node L = n -> placed q n s' e' L p b ->
  exists out outs, Forall2 (lvl rv prune) (L :: below) (out :: outs) /\ lists t (ordr rv) (visible t s e prune (onward rv p b)) (out ++ concat outs).
Proof.
  intros VS VE IN G N P. destruct (inside_facts t s e q n s' e' below VS VE IN) as (R & S1 & E1 & RE & V1 & V2 & LN & TR). destruct (placed_bound q n s' e' L p b G N P) as [BL BE].
  destruct (stack_lists rv prune t s e q n s' e' below VS VE IN) as (outs & F & LS). exists (rest rv prune L s' e'), outs. split; [constructor; [exists s', e'; split; [exact G|]; split; [lia|reflexivity]|exact F]|].
  eapply lists_ext; [|eapply (combine rv prune t s e q n s' e' (fun j => In j (rem rv L))); [exact R|exact S1|exact E1|exact RE|rewrite <- N; exact (rest_lists rv prune L s' e' G BL)|exact LS]].
  - intros x EX. apply visible_ext; [|exact EX]. intros y EY RY.
    assert (WJ : forall j z, y = q ++ j :: z -> within s' e' (List.length (children (l_node L))) j = true).
    { intros j z ->. apply (exists_app t q n _ R) in EY. subst s' e'. apply (reached_inners s e q (j :: z) t) in RY; [|now apply (exists_app t q n _ R)|exact RE]. rewrite N. destruct n as [k ts]. apply exists_cons in EY as (d & D & _).
      assert (J' : j < List.length ts) by (apply nth_error_Some; congruence). now apply (within_reached _ _ _ j z J') in RY as [W _]. }
    unfold onward. fold (sideways rv p y). destruct b.
    + destruct P as [-> IX]. split.
      * intros [H|(j & z & -> & J)]; [auto|right]. split; [reflexivity|]. now exists j, z.
      * intros [H|[_ (j & z & EQ)]]; [auto|right]. exists j, z. split; [exact EQ|]. apply (rem_spec rv L s' e' j G BL). split; [now apply (WJ j z)|now left].
    + destruct P as (i & -> & IX & W). rewrite sideways_snoc. split.
      * intros [H|(j & z & -> & J)]; [auto|left; right]. apply (rem_spec rv L s' e' j G BL) in J as [_ J]. exists j, z. split; [reflexivity|]. unfold past. rewrite IX in J. destruct rv; lia.
      * intros [[H|(j & z & -> & J)]|[H _]]; [auto| |discriminate]. right. exists j, z. split; [reflexivity|]. apply (rem_spec rv L s' e' j G BL). split; [now apply (WJ j z)|]. right. unfold past in J. rewrite IX. destruct rv; lia.
Qed.

(** ** The loop *)

Lemma step_item rv st et L below c L1 : step rv (Range st et L below) = Ok (Some (c, Range st et L1 below)) -> item_at (l_node L1) (l_index L1) = Ok c /\ exists i, L1 = set_index L i.
Proof.
  unfold step. cbn [r_top with_top r_start_trail r_end_trail r_below]. destruct rv; unfold level_prev, level_next.
  - destruct ((if (l_index L =? -1)%Z then l_end L else (l_index L - 1)%Z) <? l_start L)%Z; cbn [bindr]; [discriminate|]. destruct (item_at (l_node L) _) as [x|] eqn:IT; cbn [bindr]; [|discriminate].
    intros [= <- <-]. cbn [set_index l_node l_index]. split; [exact IT|eauto].
  - destruct (l_end L <? (if (l_index L =? -1)%Z then l_start L else (l_index L + 1)%Z))%Z; cbn [bindr]; [discriminate|]. destruct (item_at (l_node L) _) as [x|] eqn:IT; cbn [bindr]; [|discriminate].
    intros [= <- <-]. cbn [set_index l_node l_index]. split; [exact IT|eauto].
Qed.

(** The levels under the top are at a child that is not [up]. *)
Definition elsewhere (up : option nat) (L : level) : Prop := (0 <= l_index L)%Z /\ exists c, item_at (l_node L) (l_index L) = Ok c /\ same up (tid c) = false.

Definition ended (st et : option (list nat)) (up : option nat) (L : level) (mids base : list level) (r : range) : Prop :=
  match base with b :: bs => r = Range st et b bs | [] => r = Range st et (set_index (List.last mids L) (-1)) [] end.

Lemma last_app2 {A} (l : list A) x d d' : List.last (x :: l) d = List.last (x :: l) d'.
Proof. revert x. induction l as [|y l IH]; intros x; [reflexivity|]. cbn [List.last] in *. apply IH. Qed.

Lemma last_top L1 L i mids : L1 = set_index L i -> set_index (List.last mids L1) (-1) = set_index (List.last mids L) (-1).
Proof. intros ->. destruct mids as [|b mids]; [reflexivity|]. now rewrite (last_app2 mids b (set_index L i) L). Qed.

Lemma walk_gen rv prune st et up base : match base with b :: _ => (0 <= l_index b)%Z /\ exists c, item_at (l_node b) (l_index b) = Ok c /\ same up (tid c) = true | [] => True end ->
  forall fuel L mids outs, Forall2 (lvl rv prune) (L :: mids) outs -> Forall (elsewhere up) mids -> (forall y, In y (concat outs) -> same up y = false) ->
  2 * List.length (concat outs) + List.length mids < fuel ->
  exists r, walk_range fuel rv prune up (Range st et L (mids ++ base)) = Ok (concat outs, r) /\ ended st et up L mids base r.
Proof.
  intros HB. induction fuel as [|fuel IH]; intros L mids outs F FA NU LE; [lia|]. inversion F as [|? out ? outs' LV F']; subst. cbn [concat] in *. rewrite app_length in LE. cbn [walk_range].
  destruct (loop_step rv prune st et L (mids ++ base) out LV) as [[-> ->]|(c & out' & L1 & ST & LV1 & ALT)]; cbn [bindr].
  - cbn [app] in *. unfold leave. cbn [r_below]. destruct mids as [|b mids].
    + inversion F'; subst. cbn [app concat]. destruct base as [|b bs]; [cbn [Nat.eqb]; eexists; split; reflexivity|]. cbn [List.length Nat.eqb].
      destruct HB as (I0 & x & IT & SM). unfold current. cbn [r_top]. replace (l_index b =? -1)%Z with false by lia. rewrite IT. cbn [bindr r_start_trail r_end_trail]. rewrite SM. eexists. split; reflexivity.
    + cbn [app List.length Nat.eqb]. pose proof (Forall_inv FA) as (I0 & x & IT & SM). pose proof (Forall_inv_tail FA) as FA'. unfold current. cbn [r_top]. replace (l_index b =? -1)%Z with false by lia. rewrite IT. cbn [bindr r_start_trail r_end_trail]. rewrite SM.
      destruct (IH b mids outs' F' FA' NU) as (r & X & E); [cbn [List.length] in LE; lia|]. exists r. split; [exact X|]. unfold ended in *. destruct base; [|exact E]. rewrite E. f_equal. f_equal. cbn [List.last]. destruct mids; [reflexivity|]. now rewrite (last_app2 mids l b L).
  - rewrite ST. cbn [bindr]. destruct (step_item rv st et L (mids ++ base) c L1 ST) as (IT & i & EL). destruct ALT as [[-> ->]|(-> & L2 & o2 & E2 & LV2 & ->)].
    + cbn [bindr]. destruct (IH L1 mids (out' :: outs')) as (r & X & E); [now constructor|exact FA|intros y Y; apply NU; now right|cbn [concat List.length] in *; rewrite app_length; lia|].
      rewrite X. cbn [bindr concat app]. eexists. split; [reflexivity|]. unfold ended in *. destruct base; [|exact E]. now rewrite E, (last_top L1 L i mids EL).
    + rewrite E2. cbn [bindr]. destruct (IH L2 (L1 :: mids) (o2 :: out' :: outs')) as (r & X & E).
      * constructor; [exact LV2|]. now constructor.
      * constructor; [|exact FA]. assert (IN := E2). unfold enter in IN. cbn [r_top] in IN. destruct (l_index L1 =? -1)%Z eqn:IX.
        { injection IN as _ IN. exfalso. apply (f_equal (@List.length level)) in IN. cbn in IN. lia. }
        destruct LV1 as (s & e & G & _). pose proof (g_index L1 s e G). split; [lia|]. exists c. split; [exact IT|]. apply NU. now left.
      * intros y Y. apply NU. cbn [concat] in Y. right. rewrite !in_app_iff in *. tauto.
      * cbn [concat List.length] in *. rewrite !app_length in *. cbn [List.length] in *. lia.
      * cbn [app] in X. rewrite X. cbn [bindr concat app]. rewrite <- app_assoc. eexists. split; [reflexivity|]. unfold ended in *. destruct base; [|exact E]. rewrite E, <- (last_top L1 L i mids EL). f_equal. f_equal. cbn [List.last]. destruct mids; [reflexivity|]. now rewrite (last_app2 mids l L2 L1).
Qed.

(** The stack as seen from a node on the way. *)
Lemma inside_split t s e n s' e' below : valid t s -> valid t e -> forall q1 q2, inside_at t s e (q1 ++ q2) n s' e' below ->
  exists mids base m s1 e1, below = mids ++ base /\ inside_at t s e q1 m s1 e1 base /\ inside_at m s1 e1 q2 n s' e' mids.
Proof.
  intros VS VE q1 q2. revert n s' e' below. induction q2 as [|i q2 IH] using rev_ind; intros n s' e' below IN.
  - rewrite app_nil_r in IN. exists [], below, n, s', e'. split; [reflexivity|]. split; [exact IN|constructor].
  - rewrite app_assoc in IN. inversion IN as [Q|q n0 s0 e0 below0 L j c IN0 G N IX C W Q]; [destruct (q1 ++ q2); discriminate|]. apply app_inj_tail in Q as [-> ->]. subst.
    destruct (IH _ _ _ _ IN0) as (mids & base & m & s1 & e1 & -> & I1 & I2). exists (L :: mids), base, m, s1, e1. split; [reflexivity|]. split; [exact I1|]. econstructor; eauto.
Qed.

Lemma inside_elsewhere t s e q n s' e' below (up : option nat) : valid t s -> valid t e -> inside_at t s e q n s' e' below ->
  (forall q1 m, q1 <> [] -> (q1 = q \/ above q1 q) -> reach t q1 m -> same up (tid m) = false) -> Forall (elsewhere up) below.
Proof.
  intros VS VE IN. induction IN as [|q n s' e' below L i c IN IH G N IX C W]; intros H; [constructor|]. destruct (inside_facts t s e q n s' e' below VS VE IN) as (R & _).
  constructor.
  - split; [lia|]. exists c. split; [unfold item_at; rewrite IX, Nat2Z.id, N, C; reflexivity|]. apply (H (q ++ [i])); [destruct q; discriminate|now left|eapply reach_snoc; eauto].
  - apply IH. intros q1 m NE Q M. apply (H q1 m NE); [|exact M]. right. destruct Q as [->|(x & r & ->)]; [now exists i, []|]. exists x, (r ++ [i]). now rewrite <- app_assoc.
Qed.

Lemma lists_In t ord P ys y : lists t ord P ys -> In y ys -> exists p m, P p /\ reach t p m /\ tid m = y.
Proof.
  intros (ps & F & _ & I) Y. assert (X : exists p m, In p ps /\ reach t p m /\ tid m = y).
  { clear I. induction F as [|p z ps ys (m & M & T) F IH]; [destruct Y|]. destruct Y as [<-|Y]; [exists p, m; split; [now left|auto]|]. destruct (IH Y) as (p' & m' & A & B). exists p', m'. split; [now right|exact B]. }
  destruct X as (p & m & A & B & C). apply I in A as [A _]. eauto.
Qed.

(** Walking to the end. *)
Lemma cur_walk t s e p b r rv prune : valid t s -> valid t e -> cur t s e p b r ->
  exists f0 ys r', (forall fuel, f0 <= fuel -> walk_range fuel rv prune None r = Ok (ys, r')) /\ r' = reset r /\ lists t (ordr rv) (visible t s e prune (onward rv p b)) ys.
Proof.
  intros VS VE C. assert (C0 := C). destruct C0 as (q & n & s' & e' & L & below & -> & IN & G & N & P).
  destruct (place_lists rv prune t s e q n s' e' below L p b VS VE IN G N P) as (out & outs & F & LS). apply cur_reset in C. unfold reset, base_level in C. cbn [r_below r_top r_start_trail r_end_trail] in C.
  exists (S (2 * List.length (concat (out :: outs)) + List.length below)), (concat (out :: outs)), (Range s e (set_index (List.last below L) (-1)) []). split; [|split; [reflexivity|exact LS]].
  intros fuel LF. destruct (walk_gen rv prune s e None [] Logic.I fuel L below (out :: outs) F) as (r' & X & E); [|reflexivity|lia|].
  - eapply inside_elsewhere; [exact VS|exact VE|exact IN|reflexivity].
  - rewrite app_nil_r in X. rewrite X. cbn [ended] in E. now rewrite E.
Qed.

Lemma Nat_iter_S {A} (f : A -> A) k x : Nat.iter (S k) f x = Nat.iter k f (f x).
Proof. induction k as [|k IH]; [reflexivity|]. cbn [Nat.iter nat_rect] in *. unfold Nat.iter in *. cbn. now f_equal. Qed.

(** Walking inside a node. *)
Lemma cur_walk_upto t s e u m q2 b r rv prune : valid t s -> valid t e -> all_different t -> u <> [] -> reach t u m -> cur t s e (u ++ q2) b r -> (b = true \/ q2 <> []) ->
  exists f0 ys r', (forall fuel, f0 <= fuel -> walk_range fuel rv prune (Some (tid m)) r = Ok (ys, r')) /\ cur t s e u false r' /\ (exists k, r' = Nat.iter k (fun r => snd (leave r)) r) /\
    lists t (ordr rv) (visible t s e prune (fun x => onward rv (u ++ q2) b x /\ above u x)) ys.
Proof.
  intros VS VE AD NE RM (q & n & s' & e' & L & below & -> & IN & G & N & P) HB.
  assert (SP : exists q', q = u ++ q').
  { destruct b; [destruct P as [<- _]; eauto|]. destruct P as (i & EQ & _). destruct HB as [?|NQ]; [discriminate|]. destruct (exists_last NQ) as (q' & j & ->). exists q'. rewrite app_assoc in EQ. now apply app_inj_tail in EQ as [-> _]. }
  destruct SP as (q' & ->). destruct (inside_split t s e n s' e' below VS VE u q' IN) as (mids & base & m' & s1 & e1 & -> & I1 & I2).
  destruct (inside_facts t s e u m' s1 e1 base VS VE I1) as (R & S1 & E1 & RE & V1 & V2 & _). assert (m' = m) by (eapply reach_fun; eauto). subst m'.
  assert (P' : placed q' n s' e' L q2 b).
  { destruct b; [destruct P as [EQ IX]; apply app_inv_head in EQ; now split|]. destruct P as (i & EQ & X). exists i. rewrite <- app_assoc in EQ. apply app_inv_head in EQ. auto. }
  destruct (place_lists rv prune m s1 e1 q' n s' e' mids L q2 b V1 V2 I2 G N P') as (out & outs & F & LS).
  assert (NU : forall x w, x <> [] -> reach m x w -> same (Some (tid m)) (tid w) = false).
  { intros x w NX W. cbn [same]. apply Nat.eqb_neq. intros EQ. assert (X : u ++ x = u) by (apply (AD _ _ w m); [now apply (reach_app t u m x w R)|exact R|congruence]).
    rewrite <- (app_nil_r u) in X at 2. apply app_inv_head in X. congruence. }
  assert (BASE : exists q0 s0 e0 below0 L0 j, base = L0 :: below0 /\ u = q0 ++ [j] /\ inside_at t s e q0 (l_node L0) s0 e0 below0 /\ good L0 s0 e0 /\ l_index L0 = Z.of_nat j /\ nth_error (children (l_node L0)) j = Some m /\ within s0 e0 (List.length (children (l_node L0))) j = true).
  { clear - I1 NE. inversion I1 as [Q|q0 n0 s0 e0 below0 L0 j c IN0 G0 N0 IX0 C0 W0 Q]; subst; [congruence|]. exists q0, s0, e0, below0, L0, j. auto 8. }
  destruct BASE as (q0 & s0 & e0 & below0 & L0 & j & -> & EU & IN0 & G0 & IX0 & C0 & W0).
  exists (S (2 * List.length (concat (out :: outs)) + List.length mids)), (concat (out :: outs)), (Range s e L0 below0). split; [|split; [|split]].
  - intros fuel LF. destruct (walk_gen rv prune s e (Some (tid m)) (L0 :: below0)) with (fuel := fuel) (L := L) (mids := mids) (outs := out :: outs) as (r' & X & E); auto.
    + split; [lia|]. exists m. split; [unfold item_at; now rewrite IX0, Nat2Z.id, C0|]. cbn. apply Nat.eqb_refl.
    + eapply inside_elsewhere; [exact V1|exact V2|exact I2|]. intros q1 w NQ _ W. now apply (NU q1).
    + intros y Y. destruct (lists_In _ _ _ _ _ LS Y) as (x & w & (ON & _) & W & <-). apply (NU x w); [|exact W]. intros ->. destruct ON as [ON|[_ ON]]; [|now apply above_nil_r in ON].
      destruct rv; [now apply left_of_nil_l in ON|now apply left_of_nil_r in ON].
    + rewrite X. cbn [ended] in E. now rewrite E.
  - exists q0, (l_node L0), s0, e0, L0, below0. split; [reflexivity|]. split; [exact IN0|]. split; [exact G0|]. split; [reflexivity|]. exists j. auto.
  - exists (S (List.length mids)). clear. revert L. induction mids as [|b mids IH]; intros L; [reflexivity|]. cbn [List.length app]. rewrite Nat_iter_S. exact (IH b).
  - eapply lists_ext; [|apply (lists_prefix t u m rv _ _ R LS)]. intros x EX. cbn beta.
    assert (REQ : forall z, exists_at m z -> (reached s e (u ++ z) <-> reached s1 e1 z)).
    { intros z Z. rewrite S1, E1. apply (reached_inners s e u z t); [now apply (exists_app t u m z R)|exact RE]. }
    assert (ONQ : forall z, onward rv (u ++ q2) b (u ++ z) <-> onward rv q2 b z).
    { intros z. unfold onward. rewrite above_app. destruct rv; rewrite left_of_app_both; tauto. }
    assert (NZ : forall z, onward rv q2 b z -> z <> []).
    { intros z O ->. destruct O as [O|[_ O]]; [|now apply above_nil_r in O]. destruct rv; [now apply left_of_nil_l in O|now apply left_of_nil_r in O]. }
    split.
    + intros (z & -> & (ON & RZ & NS)). apply (exists_app t u m z R) in EX. split; [split; [now apply ONQ|]|].
      { specialize (NZ z ON). destruct z as [|k z]; [congruence|]. now exists k, z. }
      split; [now apply REQ|]. intros (w & x & A & [[OW AW] RW] & M & PR). apply NS. destruct AW as (k & w' & ->). exists (k :: w'), x. split; [exact (proj1 (above_app _ _ _) A)|]. apply (reach_app t u m _ x R) in M.
      split; [split; [now apply ONQ|apply REQ; [now exists x|exact RW]]|auto].
    + intros ((ON & (k & z & ->)) & RX & NS). exists (k :: z). split; [reflexivity|]. apply (exists_app t u m _ R) in EX. split; [now apply ONQ|]. split; [now apply REQ|].
      intros (w & x & A & [OW RW] & M & PR). apply NS. exists (u ++ w), x. split; [now apply above_app|]. split; [|split; [now apply (reach_app t u m w x R)|exact PR]].
      split; [split; [now apply ONQ|]|apply REQ; [now exists x|exact RW]]. specialize (NZ w OW). destruct w as [|k' w]; [congruence|]. now exists k', w.
Qed.

(** ** The children *)

Lemma exhaust_spec rv st et s e below : forall l fuel L, good L s e -> (l_index L = -1 \/ l_start L <= l_index L <= l_end L)%Z -> rem rv L = l -> List.length l < fuel ->
  exists ys i, exhaust fuel rv (Range st et L below) = Ok (ys, Range st et (set_index L i) below) /\ Forall2 (fun j y => exists c, nth_error (children (l_node L)) j = Some c /\ tid c = y) l ys.
Proof.
  induction l as [|j l IH]; intros fuel L G I RM LF; (destruct fuel as [|fuel]; [cbn in LF; lia|]); cbn [exhaust]; pose proof (hi_low e (List.length (children (l_node L)))) as HL; pose proof (g_hi _ _ _ G) as HI;
    pose proof (step_spec rv L s e G ltac:(lia)) as SP; rewrite RM in SP; unfold step; cbn [r_top]; unfold step_level in SP.
  - rewrite SP. cbn [bindr]. exists [], (l_index L). split; [now destruct L|constructor].
  - destruct SP as (c & E & ST & R2 & LE). rewrite ST. cbn [bindr with_top r_start_trail r_end_trail r_below].
    assert (W : within s e (List.length (children (l_node L))) j = true) by (apply (rem_spec rv L s e j G I); rewrite RM; now left). unfold within in W. pose proof (g_lo _ _ _ G) as LO.
    destruct (IH fuel (set_index L (Z.of_nat j))) as (ys & i & X & F); [apply set_index_good; [exact G|lia]|cbn [set_index l_index l_start l_end]; lia|exact R2|cbn in LF; lia|].
    unfold with_top. cbn [r_start_trail r_end_trail r_below]. rewrite X. cbn [bindr]. exists (tid c :: ys), i. split; [reflexivity|]. constructor; [eauto|exact F].
Qed.

Lemma cur_children t s e p b r rv : valid t s -> valid t e -> cur t s e p b r ->
  exists f0 ys r', (forall fuel, f0 <= fuel -> range_children fuel rv r = Ok (ys, r')) /\ cur t s e p (match p with [] => true | _ => false end) r' /\ (b = false -> r' = r) /\
    lists t (ordr rv) (fun x => exists j, x = p ++ [j] /\ reached s e x) ys.
Proof.
  intros VS VE C0. destruct (cur_enter t s e p b r VS VE C0) as (r1 & EN & C). assert (C1 := C). destruct C1 as (q & n & s' & e' & L & below & -> & IN & G & N & P). assert (P0 := P). destruct P0 as [-> IX].
  destruct (inside_facts t s e q n s' e' below VS VE IN) as (R & S1 & E1 & RE & V1 & V2 & LN & TR).
  destruct (exhaust_spec rv s e s' e' below (rem rv L) (S (List.length (rem rv L))) L G (or_introl IX) eq_refl ltac:(lia)) as (ys & i & _ & F).
  assert (X : forall fuel, S (List.length (rem rv L)) <= fuel -> exists i, exhaust fuel rv (Range s e L below) = Ok (ys, Range s e (set_index L i) below)).
  { intros fuel LF. destruct (exhaust_spec rv s e s' e' below (rem rv L) fuel L G (or_introl IX) eq_refl ltac:(lia)) as (zs & k & X & F'). assert (zs = ys); [|subst; eauto].
    clear - F F'. revert zs F'. induction F as [|j y l ys (c & E & T) F IH]; intros zs F'; inversion F' as [|? z ? zs' (c' & E' & T') F'']; subst; [reflexivity|]. f_equal; [congruence|auto]. }
  destruct (cur_leave t s e q true (Range s e L below) VS VE C) as [_ CL]. cbn [level_path] in CL.
  exists (S (List.length (rem rv L))), ys, (snd (leave (Range s e L below))). split; [|split; [exact CL|split]].
  - intros fuel LF. unfold range_children. rewrite EN. cbn [bindr]. destruct (X fuel LF) as (k & ->). cbn [bindr]. unfold leave. cbn [r_below]. destruct below; reflexivity.
  - intros ->. clear - EN C0 IX. destruct C0 as (q' & n' & s1 & e1 & L' & below' & -> & _ & _ & _ & (k & _ & IK & _)). unfold enter in EN. cbn [r_top] in EN. rewrite IK in EN. replace (Z.of_nat k =? -1)%Z with false in EN by lia.
    destruct (level_child L' (Z.of_nat k)) as [L2|]; [|discriminate]. cbn [bindr r_start_trail r_end_trail r_below] in EN. injection EN as _ <-. reflexivity.
  - assert (LC : lists n (ordr rv) (fun x => exists j, x = [j] /\ In j (rem rv L)) ys).
    { exists (map (fun j => [j]) (rem rv L)). pose proof (rem_sorted rv L) as SO. split; [|split].
      - rewrite N in F. clear - F. induction F as [|j y l ys (c & E & T) F IH]; cbn [map]; constructor; [|exact IH]. exists c. split; [|exact T]. destruct n as [k ts]. econstructor; [exact E|constructor].
      - clear - SO. induction SO as [|a l SO IH FA]; cbn [map]; constructor; [exact IH|]. rewrite Forall_forall in *. intros y Y. apply in_map_iff in Y as (k & <- & K). apply past_ordr, FA, K.
      - intros x. rewrite in_map_iff. split; [intros (j & <- & J)|intros [(j & -> & J) _]; eauto]. split; [eauto|]. apply (rem_spec rv L s' e' j G (or_introl IX)) in J as [W _]. rewrite N in W. 
        destruct n as [k ts]. apply exists_one. pose proof (valid_hi k ts e' V2). unfold within in W. cbn [children] in W. lia. }
    eapply lists_ext; [|apply (lists_prefix t q n rv _ ys R LC)]. intros x EX. cbn beta. split.
    + intros (z & -> & j & -> & J). exists j. split; [reflexivity|]. apply (rem_spec rv L s' e' j G (or_introl IX)) in J as [W _]. rewrite N in W. now apply (within_view t s e q n s' e' j R S1 E1 RE V2).
    + intros (j & -> & RX). exists [j]. split; [reflexivity|]. exists j. split; [reflexivity|]. apply (rem_spec rv L s' e' j G (or_introl IX)). split; [|now left]. rewrite N. now apply (within_view t s e q n s' e' j R S1 E1 RE V2).
Qed.

(** ** The ancestors *)

Definition deeper (a b : list nat) : Prop := above b a.

Lemma cur_leave_all t s e : valid t s -> valid t e -> forall k p b r, List.length (level_path p b) = k -> cur t s e p b r ->
  exists ys r' p' b', (forall fuel, k < fuel -> leave_all fuel r = Ok (ys, r')) /\ cur t s e p' b' r' /\ level_path p' b' = [] /\ (k = 0 -> p' = p /\ b' = b) /\ (0 < k -> b' = false) /\
    lists t deeper (fun x => x <> [] /\ (x = level_path p b \/ above x (level_path p b))) ys.
Proof.
  intros VS VE. induction k as [|k IH]; intros p b r LK C.
  - exists [], r, p, b. assert (LP : level_path p b = []) by (destruct (level_path p b); [reflexivity|discriminate]). split.
    { intros fuel LF. destruct fuel as [|fuel]; [lia|]. cbn [leave_all]. pose proof (cur_stands t s e p b r VS VE C) as [_ D]. unfold level_path in LP. replace (range_depth r =? 0) with true; [reflexivity|]. symmetry. apply Nat.eqb_eq. destruct b; [now subst p|].
      destruct p as [|i p]; [cbn in D; lia|]. destruct p as [|j p]; [cbn in D; lia|]. discriminate. }
    split; [exact C|]. split; [exact LP|]. split; [auto|]. split; [lia|]. rewrite LP. apply lists_nil. intros x _ [NX [->|A]]; [congruence|]. now apply above_nil_r in A.
  - destruct (cur_leave t s e p b r VS VE C) as [_ CL]. set (q := level_path p b) in *. assert (NQ : q <> []) by (intros E; rewrite E in LK; discriminate).
    replace (match q with [] => true | _ => false end) with false in CL by (destruct q; [congruence|reflexivity]).
    destruct (IH q false (snd (leave r))) as (ys & r' & p' & b' & X & C' & LP & K0 & K1 & LS); [|exact CL|].
    { unfold level_path. destruct (exists_last NQ) as (l & a & EQ). rewrite EQ in *. rewrite removelast_last. rewrite app_length in LK. cbn in LK. lia. }
    destruct (cur_node t s e q false _ VS VE CL) as (m & M & _ & CM). exists (tid m :: ys), r', p', b'. split.
    { intros fuel LF. destruct fuel as [|fuel]; [lia|]. cbn [leave_all]. pose proof (cur_stands t s e p b r VS VE C) as [_ D]. replace (range_depth r =? 0) with false.
      - destruct (leave r) as [d r1] eqn:EL. cbn [snd] in *. rewrite CM. cbn [bindr]. rewrite X by lia. reflexivity.
      - symmetry. apply Nat.eqb_neq. unfold q, level_path in LK. destruct b; [lia|]. destruct (exists_last (l := p)) as (l & a & EQ); [intros ->; discriminate|]. rewrite EQ, removelast_last in LK. rewrite EQ, app_length in D. cbn in D. lia. }
    split; [exact C'|]. split; [exact LP|]. split; [lia|]. split; [intros _; destruct k as [|k]; [now destruct (K0 eq_refl)|apply K1; lia]|].
    apply lists_ext with (P := fun x => x = q \/ (x <> [] /\ (x = level_path q false \/ above x (level_path q false)))).
    + intros x _. cbn [level_path]. destruct (exists_last NQ) as (l & a & EQ). rewrite EQ, removelast_last. split.
      * intros [->|[NX H]]; [split; [destruct l; discriminate|now left]|]. split; [exact NX|right]. destruct H as [->|(y & z & ->)]; [now exists a, []|]. exists y, (z ++ [a]). now rewrite <- app_assoc.
      * intros [NX [->|(y & z & EZ)]]; [now left|right]. split; [exact NX|]. destruct z as [|z0 z] using rev_ind; [apply app_inj_tail in EZ as [-> _]; now left|].
        rewrite app_comm_cons, app_assoc in EZ. apply app_inj_tail in EZ as [-> _]. right. now exists y, z.
    + apply (lists_app t deeper (fun x => x = q) _ [tid m] ys); [|exact LS|].
      * exists [q]. split; [constructor; [eauto|constructor]|]. split; [constructor; constructor|]. intros x. split; [intros [<-|[]]; split; [reflexivity|now exists m]|intros [-> _]; now left].
      * intros x y -> [NY H]. unfold deeper. unfold level_path in H. destruct (exists_last NQ) as (l & a & EQ). rewrite EQ, removelast_last in H. rewrite EQ. destruct H as [->|(u & z & ->)]; [now exists a, []|]. exists u, (z ++ [a]). now rewrite <- app_assoc.
Qed.

Lemma leave_all_base : forall fuel r ys r', leave_all fuel r = Ok (ys, r') -> r_below r' = [] /\ base_level r' = base_level r /\ r_start_trail r' = r_start_trail r /\ r_end_trail r' = r_end_trail r.
Proof.
  induction fuel as [|fuel IH]; intros r ys r' H; [discriminate|]. cbn [leave_all] in H. destruct r as [st et L below]. unfold range_depth in H. cbn [r_below] in H. destruct below as [|b below]; cbn [List.length Nat.eqb] in H; [injection H as <- <-; auto|].
  unfold leave in H. cbn [r_below r_start_trail r_end_trail] in H. destruct (current _); [|discriminate]. cbn [bindr] in H. destruct (leave_all fuel _) as [[zs r1]|] eqn:E; [|discriminate]. cbn [bindr] in H. injection H as <- <-.
  apply IH in E as (A & B & C & D). split; [exact A|]. split; [|auto]. rewrite B. unfold base_level. cbn [r_below r_top List.last]. destruct below; [reflexivity|]. apply last_app2.
Qed.

Lemma ancestors_reset fuel r ys r' : range_ancestors fuel r = Ok (ys, r') -> r' = reset r.
Proof.
  unfold range_ancestors. destruct (leave_all fuel r) as [[zs r1]|] eqn:E; [|discriminate]. cbn [bindr]. apply leave_all_base in E as (A & B & C & D). unfold reset. rewrite <- B, <- C, <- D. destruct r1 as [st et L below]. cbn [r_below] in A. subst below.
  unfold base_level. cbn [r_below r_top List.last r_start_trail r_end_trail with_top]. destruct (l_index L =? -1)%Z eqn:Q.
  - intros [= <- <-]. f_equal. destruct L. unfold set_index. cbn in *. f_equal. lia.
  - unfold current. cbn [r_top set_index l_index Z.eqb Pos.eqb bindr]. now intros [= <- <-].
Qed.

Lemma cur_ancestors t s e p b r : valid t s -> valid t e -> cur t s e p b r ->
  exists f0 ys r', (forall fuel, f0 <= fuel -> range_ancestors fuel r = Ok (ys, r')) /\ cur t s e [] true r' /\ lists t deeper (fun x => above x p \/ b = true /\ p <> [] /\ x = p) ys.
Proof.
  intros VS VE C. destruct (cur_leave_all t s e VS VE _ p b r eq_refl C) as (ys & r' & p' & b' & X & C' & LP & K0 & K1 & LS).
  exists (S (List.length (level_path p b))). unfold range_ancestors. destruct b'.
  - assert (Z : List.length (level_path p b) = 0) by (destruct (List.length (level_path p b)); [reflexivity|discriminate K1; lia]). destruct (K0 Z) as [-> <-]. cbn [level_path] in *. subst p.
    exists ys, r'. split; [|split; [exact C'|]].
    + intros fuel LF. rewrite X by lia. cbn [bindr]. destruct C' as (q & n & s' & e' & L & below & -> & IN & G & N & (_ & IX)). cbn [r_top]. rewrite IX. reflexivity.
    + eapply lists_ext; [|exact LS]. intros x _. split; [intros [NX [->|A]]; [congruence|now apply above_nil_r in A]|intros [A|(_ & N & _)]; [now apply above_nil_r in A|congruence]].
  - exists (ys ++ [tid t]), (with_top r' (set_index (r_top r') (-1))). assert (P1 : exists i, p' = [i]).
    { destruct (cur_stands t s e p' false r' VS VE C') as [_ D]. cbn [level_path] in LP. destruct p' as [|i [|j p']]; [cbn in D; lia|eauto|discriminate]. }
    destruct P1 as (i & ->). destruct C' as (q & n & s' & e' & L & below & -> & IN & G & N & (k & EQ & IX & W)). apply (app_inj_tail [] q) in EQ as [<- <-]. inversion IN as [|q' ? ? ? ? ? ? ? ? ? ? ? ? ? Q]; subst; [|destruct q'; discriminate].
    cbn [with_top r_top r_start_trail r_end_trail r_below] in *. split; [|split].
    + intros fuel LF. rewrite X by lia. cbn [bindr r_top]. rewrite IX. replace (Z.of_nat i =? -1)%Z with false by lia. unfold current. cbn [r_top set_index l_index l_node Z.eqb Pos.eqb bindr]. reflexivity.
    + exists [], (l_node L), s', e', (set_index L (-1)), []. split; [reflexivity|]. split; [constructor|]. split; [apply set_index_good; [exact G|lia]|]. split; [reflexivity|]. split; reflexivity.
    + assert (BP : b = true -> level_path p b = [] -> False).
      { intros -> E. cbn [level_path] in E. subst p. destruct (K0 eq_refl) as [E _]. discriminate. }
      eapply lists_ext; [|apply (lists_app (l_node L) deeper _ (fun x => x = []) ys [tid (l_node L)] LS)].
      * intros x _. cbn beta. assert (UP : (x = level_path p b \/ above x (level_path p b)) <-> (above x p \/ b = true /\ p <> [] /\ x = p)).
        { destruct b; cbn [level_path] in *.
          - assert (NP : p <> []) by (intros E; now apply BP). intuition.
          - destruct p as [|y p] using rev_ind; [destruct (K0 eq_refl) as [E _]; discriminate|]. rewrite removelast_last. split.
            + intros [->|(u & z & ->)]; left; [now exists y, []|]. exists u, (z ++ [y]). now rewrite <- app_assoc.
            + intros [(u & z & EZ)|[E _]]; [|discriminate]. destruct z as [|z0 z] using rev_ind; [apply app_inj_tail in EZ as [-> _]; now left|]. rewrite app_comm_cons, app_assoc in EZ. apply app_inj_tail in EZ as [-> _]. right. now exists u, z. }
        rewrite <- UP. split; [intros [[_ H]| ->]; [exact H|]|intros H; destruct x; [now right|left; split; [discriminate|exact H]]].
        destruct (level_path p b) as [|y l]; [now left|right; apply above_nil].
      * exists [[]]. split; [constructor; [exists (l_node L); split; [constructor|reflexivity]|constructor]|]. split; [constructor; constructor|]. intros x. split; [intros [<-|[]]; split; [reflexivity|exists (l_node L); constructor]|intros [-> _]; now left].
      * intros x y [NX _] ->. unfold deeper. destruct x; [congruence|apply above_nil].
Qed.
