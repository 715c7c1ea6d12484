(** Proofs about ranges. *)
From Coq Require Import List ZArith Bool PeanoNat Sorting.Sorted Lia ZifyBool ZifyNat.
From Verif Require Import Base Node_Model Node_Spec Node_Nav Range_Model Range_Spec.
Import ListNotations.

(** ** Order *)

Lemma upto_cons i a j b : upto (i :: a) (j :: b) <-> i < j \/ i = j /\ upto a b.
Proof.
  unfold upto, before. rewrite left_of_cases. split.
  - intros [E|[(x & r & E)|[L|[-> L]]]]; [injection E as -> ->; auto|injection E as -> ->; right; split; [reflexivity|]; right; left; now exists x, r|auto|auto].
  - intros [L|[-> [->|[A|L]]]]; [auto|auto| |auto]. right. left. now apply above_cons.
Qed.
Lemma upto_nil a : upto [] a.
Proof. destruct a as [|x a]; [now left|right; left; now exists x, a]. Qed.
Lemma upto_nil_r a : upto a [] <-> a = [].
Proof.
  split; [|intros ->; apply upto_nil]. intros [E|[(x & r & E)|(p & i & j & r & t & _ & E & _)]]; [exact E|destruct a; discriminate|destruct p; discriminate].
Qed.
Lemma above_cons2 i a j b : above (i :: a) (j :: b) <-> i = j /\ above a b.
Proof. split; [intros (x & r & E); injection E as -> ->; split; [reflexivity|now exists x, r]|intros [-> A]; now apply above_cons]. Qed.
Lemma above_nil_r a : ~ above a [].
Proof. intros (x & r & E). destruct a; discriminate. Qed.
Lemma above_nil x a : above [] (x :: a).
Proof. now exists x, a. Qed.

Lemma upto_trans a b c : upto a b -> upto b c -> upto a c.
Proof.
  revert b c. induction a as [|x a IH]; intros [|y b] [|z c]; intros H1 H2; try apply upto_nil; try (apply upto_nil_r in H1; discriminate); try (apply upto_nil_r in H2; discriminate).
  rewrite upto_cons in *. destruct H1 as [L|[-> L]], H2 as [M|[-> M]]; [left; lia|left; lia|left; lia|right; eauto].
Qed.
Lemma upto_total a b : upto a b \/ upto b a.
Proof. revert b. induction a as [|x a IH]; intros [|y b]; [left; apply upto_nil|left; apply upto_nil|right; apply upto_nil|]. rewrite !upto_cons. destruct (IH b); destruct (Nat.lt_trichotomy x y) as [|[|]]; auto. Qed.
Lemma upto_antisym a b : upto a b -> upto b a -> a = b.
Proof.
  revert b. induction a as [|x a IH]; intros [|y b] H1 H2; [reflexivity|apply upto_nil_r in H2; discriminate|apply upto_nil_r in H1; discriminate|].
  rewrite upto_cons in *. destruct H1 as [|[-> H1]], H2 as [|[E H2]]; try lia. f_equal. auto.
Qed.

Lemma list_ltb_spec a b : list_ltb a b = true <-> ~ upto b a.
Proof.
  revert b. induction a as [|x a IH]; intros [|y b]; cbn [list_ltb].
  - split; [discriminate|]. intros H. elim H. apply upto_nil.
  - split; [|reflexivity]. intros _ H. apply upto_nil_r in H. discriminate.
  - split; [discriminate|]. intros H. elim H. apply upto_nil.
  - rewrite orb_true_iff, andb_true_iff, Nat.ltb_lt, Nat.eqb_eq, IH, upto_cons. split; [intros [L|[-> N]] [M|[E M]]; try lia; tauto|].
    intros H. destruct (Nat.lt_trichotomy x y) as [L|[->|L]]; [now left|right; split; [reflexivity|]; intros M; apply H; auto|elim H; auto].
Qed.
Lemma list_leb_spec a b : list_leb a b = true <-> upto a b.
Proof.
  unfold list_leb. rewrite negb_true_iff, <- not_true_iff_false, list_ltb_spec. split; [|tauto]. intros H. destruct (upto_total a b); [assumption|].
  destruct (list_ltb b a) eqn:E; [|].
  - apply list_ltb_spec in E. elim H. exact E.
  - rewrite <- not_true_iff_false, list_ltb_spec in E. assert (X : ~ ~ upto a b) by exact E. clear - H X. 
    (* decidable *) destruct (upto_total a b) as [|U]; [assumption|]. destruct (list_eq_dec Nat.eq_dec a b) as [->|N]; [now left|].
    exfalso. apply X. intros V. apply N. now apply upto_antisym.
Qed.

(** ** Boundaries relative to a child *)

Definition lo (s : option (list nat)) : nat := match s with Some (i :: _) => i | _ => 0 end.
Definition hi (e : option (list nat)) (len : nat) : Z := match e with None => (Z.of_nat len - 1)%Z | Some [] => (-1)%Z | Some (i :: _) => Z.of_nat i end.
Definition inner (s : option (list nat)) (i : nat) : option (list nat) := match s with Some (j :: r) => if i =? j then Some r else None | _ => None end.

Lemma reached_nil s e : reached s e [].
Proof. split; [|destruct e; [apply upto_nil|exact Logic.I]]. destruct s as [[|x s]|]; [left; apply upto_nil|right; apply above_nil|exact Logic.I]. Qed.

Lemma reached_cons s e i p len : i < len ->
  (reached s e (i :: p) <-> lo s <= i /\ (Z.of_nat i <= hi e len)%Z /\ reached (inner s i) (inner e i) p).
Proof.
  intros L. unfold reached.
  assert (S : match s with Some s => upto s (i :: p) \/ above (i :: p) s | None => True end <-> lo s <= i /\ match inner s i with Some s => upto s p \/ above p s | None => True end).
  { destruct s as [[|j s]|]; cbn [lo inner].
    - split; [intros _; split; [lia|exact Logic.I]|intros _; left; apply upto_nil].
    - rewrite upto_cons, above_cons2. destruct (Nat.eqb_spec i j) as [->|N]; [split; [intros [[?|[_ U]]|[_ A]]; [lia|auto|auto]|intros [_ [U|A]]; auto]|].
      split; [intros [[?|[? _]]|[? _]]; lia|intros [? _]; left; left; lia].
    - split; [intros _; split; [lia|exact Logic.I]|auto]. }
  assert (E : match e with Some e => upto (i :: p) e | None => True end <-> (Z.of_nat i <= hi e len)%Z /\ match inner e i with Some e => upto p e | None => True end).
  { destruct e as [[|j e]|]; cbn [hi inner].
    - rewrite upto_nil_r. split; [discriminate|lia].
    - rewrite upto_cons. destruct (Nat.eqb_spec i j) as [->|N]; [split; [intros [?|[_ U]]; [lia|split; [lia|exact U]]|intros [_ U]; auto]|].
      split; [intros [?|[? _]]; [split; [lia|exact Logic.I]|lia]|intros [? _]; left; lia].
    - split; [intros _; split; [lia|exact Logic.I]|auto]. }
  rewrite S, E. tauto.
Qed.

Lemma reach_fun t p m n : reach t p m -> reach t p n -> m = n.
Proof. intros A. revert n. induction A; intros m B; inversion B; subst; [reflexivity|]. apply IHA. congruence. Qed.
Lemma reach_cons n ts i p m : reach (T n ts) (i :: p) m <-> exists c, nth_error ts i = Some c /\ reach c p m.
Proof. split; [intros A; inversion A; subst; eauto|intros (c & E & A); econstructor; eauto]. Qed.
Lemma exists_cons n ts i p : exists_at (T n ts) (i :: p) <-> exists c, nth_error ts i = Some c /\ exists_at c p.
Proof. unfold exists_at. split; [intros [m A]; apply reach_cons in A as (c & E & A); eauto|intros (c & E & m & A); exists m; apply reach_cons; eauto]. Qed.

Lemma valid_inner n ts s i c : valid (T n ts) s -> nth_error ts i = Some c -> valid c (inner s i).
Proof.
  destruct s as [[|j s]|]; cbn [valid inner]; auto. intros V E. destruct (Nat.eqb_spec i j) as [->|]; [|exact Logic.I]. apply exists_cons in V as (c' & E' & V). cbn. congruence.
Qed.
Lemma valid_hi n ts e : valid (T n ts) e -> (hi e (List.length ts) < Z.of_nat (List.length ts))%Z.
Proof. destruct e as [[|j e]|]; cbn [valid hi]; try lia. intros V. apply exists_cons in V as (c & E & _). assert (j < List.length ts) by (apply nth_error_Some; congruence). lia. Qed.
Lemma valid_lo n ts s : valid (T n ts) s -> match s with Some (i :: _) => i < List.length ts | _ => True end.
Proof. destruct s as [[|j s]|]; cbn [valid]; auto. intros V. apply exists_cons in V as (c & E & _). apply nth_error_Some. congruence. Qed.

(** ** What is visited *)

Definition within (s e : option (list nat)) (len i : nat) : bool := (lo s <=? i) && (Z.of_nat i <=? hi e len)%Z.

Fixpoint seen (rv : bool) (prune : nat -> bool) (s e : option (list nat)) (t : tree) : list nat :=
  match t with T _ ts =>
    (fix go (i : nat) (l : list tree) : list nat := match l with
                   | [] => []
                   | c :: r => joined rv (if within s e (List.length ts) i then tid c :: (if prune (tid c) then [] else seen rv prune (inner s i) (inner e i) c) else []) (go (S i) r)
                   end) 0 ts
  end.
Definition block (rv : bool) (prune : nat -> bool) (s e : option (list nat)) (i : nat) (c : tree) : list nat := tid c :: (if prune (tid c) then [] else seen rv prune (inner s i) (inner e i) c).
Fixpoint fseen (rv : bool) (prune : nat -> bool) (s e : option (list nat)) len i (l : list tree) : list nat :=
  match l with [] => [] | c :: r => joined rv (if within s e len i then block rv prune s e i c else []) (fseen rv prune s e len (S i) r) end.
Lemma seen_eq rv prune s e n ts : seen rv prune s e (T n ts) = fseen rv prune s e (List.length ts) 0 ts.
Proof.
  cbn [seen]. generalize (List.length ts) as len, 0 as k. induction ts as [|c r IH]; intros len k; [reflexivity|]. cbn [fseen]. now rewrite IH.
Qed.

(** The same with paths. *)
Fixpoint spaths (rv : bool) (prune : nat -> bool) (s e : option (list nat)) (t : tree) : list (list nat) :=
  match t with T _ ts =>
    (fix go (i : nat) (l : list tree) : list (list nat) := match l with
                   | [] => []
                   | c :: r => joined rv (if within s e (List.length ts) i then map (cons i) ([] :: (if prune (tid c) then [] else spaths rv prune (inner s i) (inner e i) c)) else []) (go (S i) r)
                   end) 0 ts
  end.
Definition pblock (rv : bool) (prune : nat -> bool) (s e : option (list nat)) (i : nat) (c : tree) : list (list nat) := map (cons i) ([] :: (if prune (tid c) then [] else spaths rv prune (inner s i) (inner e i) c)).
Fixpoint fpaths (rv : bool) (prune : nat -> bool) (s e : option (list nat)) len i (l : list tree) : list (list nat) :=
  match l with [] => [] | c :: r => joined rv (if within s e len i then pblock rv prune s e i c else []) (fpaths rv prune s e len (S i) r) end.
Lemma spaths_eq rv prune s e n ts : spaths rv prune s e (T n ts) = fpaths rv prune s e (List.length ts) 0 ts.
Proof.
  cbn [spaths]. generalize (List.length ts) as len, 0 as k. induction ts as [|c r IH]; intros len k; [reflexivity|]. cbn [fpaths]. now rewrite IH.
Qed.

Lemma fpaths_In rv prune s e len ts : forall k p, In p (fpaths rv prune s e len k ts) <->
  exists j c q, p = (k + j) :: q /\ nth_error ts j = Some c /\ within s e len (k + j) = true /\ (q = [] \/ prune (tid c) = false /\ In q (spaths rv prune (inner s (k + j)) (inner e (k + j)) c)).
Proof.
  induction ts as [|c ts IH]; intros k p; cbn [fpaths].
  - split; [intros []|]. intros (j & c & q & _ & E & _). destruct j; discriminate.
  - rewrite joined_In, IH. split.
    + intros [H|(j & c' & q & -> & E & W & H)].
      * destruct (within s e len k) eqn:W; [|destruct H]. unfold pblock in H. apply in_map_iff in H as (q & <- & H). exists 0, c, q. rewrite !Nat.add_0_r. repeat split; auto.
        destruct H as [<-|H]; [now left|right]. destruct (prune (tid c)); [destruct H|auto].
      * exists (S j), c', q. rewrite !Nat.add_succ_r in *. cbn [Nat.add] in *. auto.
    + intros (j & c' & q & -> & E & W & H). destruct j as [|j].
      * injection E as ->. rewrite Nat.add_0_r in *. rewrite W. left. unfold pblock. apply in_map. destruct H as [->|[-> H]]; [now left|right; exact H].
      * right. exists j, c', q. rewrite !Nat.add_succ_r in *. cbn [Nat.add]. auto.
Qed.

Lemma skipped_here t Q prune : ~ skipped t Q prune [].
Proof. intros (q & m & A & _). now apply above_nil_r in A. Qed.

Lemma skipped_cons n ts i c p (Q : list nat -> Prop) prune : nth_error ts i = Some c ->
  (skipped (T n ts) (fun q => q <> [] /\ Q q) prune (i :: p) <-> (p <> [] /\ Q [i] /\ prune (tid c) = true) \/ skipped c (fun q => q <> [] /\ Q (i :: q)) prune p).
Proof.
  intros E. split.
  - intros (q & m & A & [NE HQ] & R & P). destruct q as [|j q]; [congruence|]. apply above_cons2 in A as [-> A]. apply reach_cons in R as (c' & E' & R). assert (c' = c) by congruence. subst c'.
    destruct q as [|k q]; [inversion R; subst; left; split; [intros ->; now apply above_nil_r in A|auto]|]. right. exists (k :: q), m. repeat split; auto. discriminate.
  - intros [(NE & HQ & P)|(q & m & A & [NE HQ] & R & P)].
    + destruct p as [|k p]; [congruence|]. exists [i], c. split; [apply above_cons2; split; [reflexivity|apply above_nil]|]. split; [split; [discriminate|exact HQ]|]. split; [econstructor; [exact E|constructor]|exact P].
    + exists (i :: q), m. split; [now apply above_cons2|]. split; [split; [discriminate|exact HQ]|]. split; [econstructor; eauto|exact P].
Qed.

Lemma within_reached s e len i p : i < len -> (reached s e (i :: p) <-> within s e len i = true /\ reached (inner s i) (inner e i) p).
Proof. intros L. rewrite (reached_cons s e i p len L). unfold within. rewrite andb_true_iff, Nat.leb_le, Z.leb_le. tauto. Qed.

Lemma spaths_In rv prune : forall t s e p, In p (spaths rv prune s e t) <->
  (p <> [] /\ reached s e p /\ ~ skipped t (fun q => q <> [] /\ reached s e q) prune p) /\ exists_at t p.
Proof.
  induction t as [n ts IH] using tree_ind2. intros s e p. rewrite spaths_eq, fpaths_In. rewrite Forall_forall in IH. split.
  - intros (j & c & q & -> & E & W & H). cbn [Nat.add] in *. assert (J : j < List.length ts) by (apply nth_error_Some; congruence). assert (IC := nth_error_In _ _ E).
    assert (X : reached (inner s j) (inner e j) q /\ ~ ((q <> [] /\ reached s e [j] /\ prune (tid c) = true) \/ skipped c (fun q => q <> [] /\ reached s e (j :: q)) prune q) /\ exists_at c q).
    { destruct H as [->|[PR H]].
      - split; [apply reached_nil|]. split; [|exists c; constructor]. intros [(N & _)|S]; [congruence|now apply skipped_here in S].
      - apply (IH c IC) in H as [(NE & R & NS) EX]. split; [exact R|]. split; [|exact EX]. intros [(_ & _ & P)|S]; [congruence|]. apply NS.
        destruct S as (x & m & A & [NX RX] & RC & P). exists x, m. split; [exact A|]. split; [split; [exact NX|]|auto]. now apply (within_reached s e (List.length ts) j x J) in RX. }
    destruct X as (R & NS & EX). split; [|apply exists_cons; eauto]. split; [discriminate|]. split; [now apply (within_reached s e (List.length ts) j q J)|].
    intros S. apply NS. now apply (skipped_cons n ts j c q (reached s e) prune E).
  - intros [(NE & R & NS) EX]. destruct p as [|j q]; [congruence|]. apply exists_cons in EX as (c & E & EX). assert (J : j < List.length ts) by (apply nth_error_Some; congruence).
    apply (within_reached s e (List.length ts) j q J) in R as [W R]. exists j, c, q. split; [reflexivity|]. split; [exact E|]. cbn [Nat.add]. split; [exact W|].
    destruct q as [|k q]; [now left|right]. rewrite (skipped_cons n ts j c (k :: q) (reached s e) prune E) in NS.
    assert (RJ : reached s e [j]) by (apply (within_reached s e (List.length ts) j [] J); split; [exact W|apply reached_nil]).
    split; [destruct (prune (tid c)); [elim NS; left; split; [discriminate|auto]|reflexivity]|]. apply (IH c (nth_error_In _ _ E)). split; [|exact EX]. split; [discriminate|]. split; [exact R|].
    intros (x & m & A & [NX RX] & RC & P). apply NS. right. exists x, m. split; [exact A|]. split; [split; [exact NX|]|auto]. now apply (within_reached s e (List.length ts) j x J).
Qed.

Lemma fpaths_sorted rv prune s e len ts : Forall (fun t => forall s e, StronglySorted (ordr rv) (spaths rv prune s e t)) ts -> forall k, StronglySorted (ordr rv) (fpaths rv prune s e len k ts).
Proof.
  intros F. induction F as [|c ts H F IH]; intros k; cbn [fpaths]; [constructor|].
  assert (SB : StronglySorted (ordr rv) (if within s e len k then pblock rv prune s e k c else [])).
  { destruct (within s e len k); [|constructor]. unfold pblock. apply SS_map; [intros; now apply ordr_cons|]. constructor.
    - destruct (prune (tid c)); [constructor|apply H].
    - rewrite Forall_forall. intros q Q. assert (q <> []) by (destruct (prune (tid c)); [destruct Q|apply spaths_In in Q; tauto]). destruct q as [|x q]; [congruence|].
      destruct rv; left; apply above_nil. }
  assert (HB : forall p, In p (if within s e len k then pblock rv prune s e k c else []) -> exists q, p = k :: q).
  { intros p. destruct (within s e len k); [|intros []]. intros J. apply in_map_iff in J as (q & <- & _). now exists q. }
  assert (HR : forall p, In p (fpaths rv prune s e len (S k) ts) -> exists j q, p = j :: q /\ k < j).
  { intros p J. apply fpaths_In in J as (j & c' & q & -> & _). exists (S k + j), q. split; [reflexivity|lia]. }
  unfold joined. destruct rv.
  - apply SS_app; [apply IH|exact SB|]. intros x y X Y. destruct (HR x X) as (j & q & -> & L). destruct (HB y Y) as (q' & ->). right. exists [], k, j, q', q. auto.
  - apply SS_app; [exact SB|apply IH|]. intros x y X Y. destruct (HR y Y) as (j & q & -> & L). destruct (HB x X) as (q' & ->). right. exists [], k, j, q', q. auto.
Qed.
Lemma spaths_sorted rv prune : forall t s e, StronglySorted (ordr rv) (spaths rv prune s e t).
Proof. induction t as [n ts IH] using tree_ind2. intros s e. rewrite spaths_eq. now apply fpaths_sorted. Qed.

Definition points_at (t : tree) (p : list nat) (y : nat) : Prop := exists m, reach t p m /\ tid m = y.

Lemma points_cons n ts i c p y : nth_error ts i = Some c -> points_at c p y -> points_at (T n ts) (i :: p) y.
Proof. intros E (m & R & M). exists m. split; [econstructor; eauto|exact M]. Qed.

Lemma spaths_seen rv prune : forall t s e, Forall2 (points_at t) (spaths rv prune s e t) (seen rv prune s e t).
Proof.
  induction t as [n ts IH] using tree_ind2. intros s e. rewrite spaths_eq, seen_eq. rewrite Forall_forall in IH.
  assert (X : forall l k, (forall j c, nth_error l j = Some c -> nth_error ts (k + j) = Some c) ->
    Forall2 (points_at (T n ts)) (fpaths rv prune s e (List.length ts) k l) (fseen rv prune s e (List.length ts) k l)).
  { induction l as [|c l IHl]; intros k H; cbn [fpaths fseen]; [constructor|]. assert (E : nth_error ts k = Some c) by (specialize (H 0 c eq_refl); now rewrite Nat.add_0_r in H).
    apply Forall2_joined; [|apply IHl; intros j c' E'; specialize (H (S j) c' E'); now rewrite Nat.add_succ_r in H].
    destruct (within s e (List.length ts) k); [|constructor]. unfold pblock, block. cbn [map]. constructor; [exists c; split; [econstructor; [exact E|constructor]|reflexivity]|].
    destruct (prune (tid c)); [constructor|]. apply Forall2_map_l. eapply Forall2_impl2; [|apply (IH c (nth_error_In _ _ E))]. intros p y. now apply points_cons. }
  apply X. auto.
Qed.

(** The visited nodes, for a range with these boundaries. *)
Lemma seen_lists rv prune t s e : lists t (ordr rv) (fun p => p <> [] /\ reached s e p /\ ~ skipped t (fun q => q <> [] /\ reached s e q) prune p) (seen rv prune s e t).
Proof.
  exists (spaths rv prune s e t). split; [apply spaths_seen|]. split; [apply spaths_sorted|]. apply spaths_In.
Qed.
