(** Proofs about node trees: common ancestors, height, equality and copies. *)
From Coq Require Import List ZArith Bool PeanoNat Relations Sorting.Sorted Lia.
From Verif Require Import Base Node_Model Node_Spec Node_Proofs Node_Nav.
Import ListNotations.

Lemma ups_app c y : ups (c ++ y) = map (app c) (ups y) ++ ups c.
Proof.
  induction y as [|j y IH] using rev_ind; [now rewrite app_nil_r|].
  rewrite app_assoc, !ups_snoc, IH. reflexivity.
Qed.
Lemma ups_below c j s : ups (c ++ j :: s) = map (fun t => c ++ j :: t) (ups s) ++ c :: ups c.
Proof.
  replace (c ++ j :: s) with ((c ++ [j]) ++ s) by (now rewrite <- app_assoc). rewrite ups_app, ups_snoc. f_equal.
  apply map_ext. intros t. now rewrite <- app_assoc.
Qed.
Lemma ups_length p : List.length (ups p) = List.length p.
Proof. induction p as [|i p IH] using rev_ind; [reflexivity|]. rewrite ups_snoc, app_length. cbn. lia. Qed.

Lemma mem_In n l : mem n l = true <-> In n l.
Proof. unfold mem. rewrite existsb_exists. split; [intros (x & I & E); apply Nat.eqb_eq in E; congruence|]. intros I. exists n. split; [exact I|apply Nat.eqb_refl]. Qed.

Lemma Forall2_In_r {A C} (R : A -> C -> Prop) l m y : Forall2 R l m -> In y m -> exists x, In x l /\ R x y.
Proof. intros F. induction F; intros []; [subst; eexists; split; [now left|eassumption]|]. destruct (IHF H0) as (z & I & Z). exists z. split; [now right|exact Z]. Qed.
Lemma Forall2_In_l {A C} (R : A -> C -> Prop) l m x : Forall2 R l m -> In x l -> exists y, In y m /\ R x y.
Proof. intros F. induction F; intros []; [subst; eexists; split; [now left|eassumption]|]. destruct (IHF H0) as (z & I & Z). exists z. split; [now right|exact Z]. Qed.

Lemma Forall2_len {A C} (R : A -> C -> Prop) l m : Forall2 R l m -> List.length l = List.length m.
Proof. induction 1; cbn; congruence. Qed.

Section More.
Context {B : Type}.
Implicit Types h : heap B.

Lemma mem_ancestors h r pa la n q : integrity h -> par h r = None -> Forall2 (at_path h r) (ups pa) la -> at_path h r q n ->
  (In n la <-> above q pa).
Proof.
  intros I RT F A. split.
  - intros J. destruct (Forall2_In_r _ _ _ _ F J) as (p & P & AP). apply ups_In in P. rewrite (path_unique h r q p n I RT A AP). exact P.
  - intros AB. apply ups_In in AB. destruct (Forall2_In_l _ _ _ _ F AB) as (m & M & AM). rewrite (at_path_det h r q n m A AM). exact M.
Qed.

Lemma not_prefix c x y j s t : diverge x y -> y = j :: s -> ~ above (c ++ j :: t) (c ++ x) /\ c ++ j :: t <> c ++ x.
Proof.
  intros D ->. split.
  - intros (z & u & E). rewrite <- app_assoc in E. apply app_inv_head in E. subst x. cbn in D. congruence.
  - intros E. apply app_inv_head in E. subst x. cbn in D. congruence.
Qed.

Lemma Forall2_ups_split h r c j s l : Forall2 (at_path h r) (ups (c ++ j :: s)) l ->
  exists l1 m l2, l = l1 ++ m :: l2 /\ at_path h r c m /\ Forall2 (at_path h r) (map (fun t => c ++ j :: t) (ups s)) l1 /\ List.length l1 = List.length s.
Proof.
  rewrite ups_below. intros F. apply Forall2_app_inv_l in F as (l1 & l2 & F1 & F2 & ->). inversion F2; subst.
  exists l1, y, l'. split; [reflexivity|]. split; [assumption|]. split; [exact F1|]. apply Forall2_len in F1. now rewrite map_length, ups_length in F1.
Qed.

(** Nothing strictly between [c] and [b] is [a] or above [a]. *)
Lemma below_not_common h r pa la a c x y j s l1 : integrity h -> par h r = None -> Forall2 (at_path h r) (ups pa) la -> at_path h r pa a ->
  pa = c ++ x -> diverge x y -> y = j :: s ->
  Forall2 (at_path h r) (map (fun t => c ++ j :: t) (ups s)) l1 -> forall n, In n l1 -> n <> a /\ ~ In n la.
Proof.
  intros I RT F A -> D EY F1 n J. destruct (Forall2_In_r _ _ _ _ F1 J) as (p & P & AP). apply in_map_iff in P as (t & <- & _).
  destruct (not_prefix c x y j s t D EY) as [N1 N2]. split.
  - intros ->. apply N2. eapply path_unique; eauto.
  - intros X. apply (mem_ancestors h r (c ++ x) la n _ I RT F AP) in X. tauto.
Qed.

Lemma common_ancestor_spec h r c x y a b m fuel : integrity h -> par h r = None ->
  at_path h r (c ++ x) a -> at_path h r (c ++ y) b -> diverge x y -> at_path h r c m ->
  List.length (c ++ x) < fuel -> List.length (c ++ y) < fuel -> common_ancestor fuel h a b = Ok (Some m).
Proof.
  intros I RT A1 A2 D AM L1 L2. unfold common_ancestor. destruct (Nat.eqb_spec b a) as [->|N].
  - assert (E := path_unique h r _ _ a I RT A1 A2). apply app_inv_head in E. subst y. destruct x; [|cbn in D; congruence].
    rewrite app_nil_r in A1. now rewrite (at_path_det h r c a m A1 AM).
  - destruct (awi_spec h r _ a fuel I RT A1 L1) as (la & E1 & _ & _ & F1). destruct (awi_spec h r _ b fuel I RT A2 L2) as (lb & E2 & _ & _ & F2).
    rewrite E1. cbn [bindr]. destruct (mem b (map fst la)) eqn:MB.
    + apply mem_In in MB. apply (mem_ancestors h r (c ++ x) _ b _ I RT F1 A2) in MB. destruct MB as (z & u & E). rewrite <- app_assoc in E.
      apply app_inv_head in E. subst x. destruct y as [|k y]; [|cbn in D; congruence]. rewrite app_nil_r in A2. now rewrite (at_path_det h r c b m A2 AM).
    + rewrite E2. cbn [bindr]. f_equal. destruct y as [|j s].
      * exfalso. rewrite app_nil_r in A2. destruct x as [|i x]; [rewrite app_nil_r in A1; apply N; eapply at_path_det; eauto|].
        assert (X : In b (map fst la)) by (apply (mem_ancestors h r (c ++ i :: x) _ b c I RT F1 A2); now exists i, x). apply mem_In in X. congruence.
      * destruct (Forall2_ups_split h r c j s _ F2) as (l1 & m' & l2 & -> & AM' & FL & _). assert (m' = m) by (eapply at_path_det; eauto). subst m'.
        assert (NB := below_not_common h r (c ++ x) (map fst la) a c x (j :: s) j s l1 I RT F1 A1 eq_refl D eq_refl FL).
        assert (X : mem m (a :: map fst la) = true).
        { apply mem_In. destruct x as [|i x]; [left; rewrite app_nil_r in A1; eapply at_path_det; eauto|right].
          apply (mem_ancestors h r (c ++ i :: x) _ m c I RT F1 AM). now exists i, x. }
        clear - NB X. induction l1 as [|n l1 IH]; cbn [app find]; [now rewrite X|].
        replace (mem n (a :: map fst la)) with false; [apply IH; intros z Z; apply NB; now right|].
        symmetry. apply not_true_iff_false. rewrite mem_In. destruct (NB n (or_introl eq_refl)) as [P Q]. intros [->|Y]; tauto.
Qed.

Lemma up_to_none other l acc : ~ In other (map fst l) -> up_to other l acc = None.
Proof.
  revert acc. induction l as [|[n i] l IH]; intros acc J; [reflexivity|]. cbn [up_to]. cbn in J. destruct (Nat.eqb_spec n other); [tauto|]. apply IH. tauto.
Qed.
Lemma up_to_some other l1 i l2 acc : ~ In other (map fst l1) -> up_to other (l1 ++ (other, i) :: l2) acc = Some (i :: rev (map snd l1) ++ acc).
Proof.
  revert acc. induction l1 as [|[n k] l1 IH]; intros acc J; cbn [app up_to]; [now rewrite Nat.eqb_refl|]. cbn in J. destruct (Nat.eqb_spec n other); [tauto|].
  rewrite IH by tauto. cbn [map rev snd]. now rewrite <- app_assoc.
Qed.

(** The rows of a path below [c], with their indices. *)
Lemma rows_split h r c j s l : integrity h -> par h r = None -> Forall2 (at_path h r) (ups (c ++ j :: s)) (map fst l) -> map snd l = rev (c ++ j :: s) ->
  exists l1 m l2, l = l1 ++ (m, j) :: l2 /\ at_path h r c m /\ Forall2 (at_path h r) (map (fun t => c ++ j :: t) (ups s)) (map fst l1) /\
    map snd l1 = rev s /\ map snd l2 = rev c.
Proof.
  intros I RT F S. destruct (Forall2_ups_split h r c j s _ F) as (k1 & m & k2 & E & AM & FL & LL).
  assert (X : exists l1 l2, l = l1 ++ l2 /\ map fst l1 = k1 /\ map fst l2 = m :: k2).
  { clear - E. revert k1 E. induction l as [|[n i] l IH]; intros [|x k1] E; cbn in E; try discriminate.
    - exists [], ((n, i) :: l). cbn. auto.
    - injection E as -> E. destruct (IH k1 E) as (l1 & l2 & -> & <- & E2). exists ((x, i) :: l1), l2. cbn. auto. }
  destruct X as (l1 & l2 & -> & <- & E2). destruct l2 as [|[m' j'] l2]; [discriminate|]. injection E2 as -> E2.
  rewrite map_app, rev_app_distr in S. cbn [map snd rev] in S. rewrite <- !app_assoc in S. cbn [app] in S.
  assert (LS : List.length (map snd l1) = List.length (rev s)) by (rewrite map_length, rev_length, <- (map_length fst l1); exact LL).
  assert (X : map snd l1 = rev s /\ j' :: map snd l2 = j :: rev c).
  { clear - S LS. revert S LS. generalize (map snd l1) (rev s). induction l as [|a l IH]; intros [|b l'] S L; cbn in L; try lia; cbn in S; [auto|].
    injection S as -> S. destruct (IH l' S ltac:(lia)) as [-> E]. auto. }
  destruct X as [X1 X2]. injection X2 as -> X2. exists l1, m, l2. auto.
Qed.

Lemma with_trail_spec h r c x y a b m fuel : integrity h -> par h r = None ->
  at_path h r (c ++ x) a -> at_path h r (c ++ y) b -> diverge x y -> at_path h r c m ->
  List.length (c ++ x) < fuel -> List.length (c ++ y) < fuel -> common_ancestor_with_trail fuel h a b = Ok (Some (m, x, y)).
Proof.
  intros I RT A1 A2 D AM L1 L2. unfold common_ancestor_with_trail. destruct (Nat.eqb_spec b a) as [->|N].
  - assert (E := path_unique h r _ _ a I RT A1 A2). apply app_inv_head in E. subst y. destruct x; [|cbn in D; congruence].
    rewrite app_nil_r in A1. now rewrite (at_path_det h r c a m A1 AM).
  - destruct (awi_spec h r _ a fuel I RT A1 L1) as (la & E1 & W1 & S1 & F1). destruct (awi_spec h r _ b fuel I RT A2 L2) as (lb & E2 & W2 & S2 & F2).
    unfold ancestors_with_index. rewrite E1. cbn [bindr]. rewrite W1. cbn [bindr].
    destruct y as [|j s].
    + (* b is above a *)
      rewrite app_nil_r in A2. assert (b = m) by (eapply at_path_det; eauto). subst b.
      destruct x as [|i x]; [rewrite app_nil_r in A1; elim N; eapply at_path_det; eauto|].
      destruct (rows_split h r c i x la I RT F1 S1) as (l1 & m' & l2 & -> & AM' & FL & SL & _). assert (m' = m) by (eapply at_path_det; eauto). subst m'.
      rewrite up_to_some.
      * rewrite app_nil_r, SL, rev_involutive. reflexivity.
      * intros J. destruct (Forall2_In_r _ _ _ _ FL J) as (p & P & AP). apply in_map_iff in P as (t & <- & _).
        assert (X := path_unique h r _ _ m I RT AP AM). apply (f_equal (@List.length nat)) in X. rewrite app_length in X. cbn in X. lia.
    + rewrite up_to_none.
      2:{ intros J. apply (mem_ancestors h r (c ++ x) _ b _ I RT F1 A2) in J. destruct (not_prefix c x (j :: s) j s s D eq_refl) as [X _]. tauto. }
      rewrite E2. cbn [bindr]. rewrite W2. cbn [bindr]. f_equal.
      destruct (rows_split h r c j s lb I RT F2 S2) as (l1 & m' & l2 & -> & AM' & FL & SL & _). assert (m' = m) by (eapply at_path_det; eauto). subst m'.
      assert (NB := below_not_common h r (c ++ x) (map fst la) a c x (j :: s) j s (map fst l1) I RT F1 A1 eq_refl D eq_refl FL).
      assert (ML : forall l1 acc, (forall n, In n (map fst l1) -> n <> a /\ ~ In n (map fst la)) ->
        meet a la (l1 ++ (m, j) :: l2) acc = meet a la ((m, j) :: l2) (rev (map snd l1) ++ acc)).
      { clear. induction l1 as [|[n k] l1 IH]; intros acc NB; [reflexivity|]. cbn [app meet]. destruct (NB n (or_introl eq_refl)) as [P Q].
        destruct (Nat.eqb_spec n a); [tauto|]. rewrite (proj2 (find_index_none n (map fst la)) Q). rewrite IH; [|intros z Z; apply NB; now right].
        cbn [map rev snd app]. now rewrite <- app_assoc. }
      rewrite (ML l1 [] NB), app_nil_r, SL, rev_involutive. cbn [meet].
      destruct x as [|i x].
      * rewrite app_nil_r in A1. assert (m = a) by (eapply at_path_det; eauto). subst m. now rewrite Nat.eqb_refl.
      * destruct (Nat.eqb_spec m a) as [->|NA].
        { assert (X := path_unique h r _ _ a I RT A1 AM). apply (f_equal (@List.length nat)) in X. rewrite app_length in X. cbn in X. lia. }
        destruct (rows_split h r c i x la I RT F1 S1) as (k1 & m' & k2 & -> & AM2 & FL2 & SL2 & SK2). assert (m' = m) by (eapply at_path_det; eauto). subst m'.
        assert (FI : find_index m (map fst (k1 ++ (m, i) :: k2)) = Some (List.length k1)).
        { assert (NI : ~ In m (map fst k1)).
          { intros J. destruct (Forall2_In_r _ _ _ _ FL2 J) as (p & P & AP). apply in_map_iff in P as (t & <- & _).
            assert (X := path_unique h r _ _ m I RT AP AM). apply (f_equal (@List.length nat)) in X. rewrite app_length in X. cbn in X. lia. }
          clear - NI. induction k1 as [|[n k] k1 IH]; cbn [app map fst find_index List.length]; [now rewrite Nat.eqb_refl|]. cbn in NI.
          destruct (Nat.eqb_spec n m); [tauto|]. rewrite IH by tauto. reflexivity. }
        rewrite FI. rewrite map_app. cbn [map snd]. rewrite SL2.
        replace (S (List.length k1)) with (List.length (rev x ++ [i])).
        2:{ rewrite app_length, <- SL2, map_length. cbn. lia. }
        replace (rev x ++ i :: map snd k2) with ((rev x ++ [i]) ++ map snd k2) by (now rewrite <- app_assoc).
        rewrite firstn_app, Nat.sub_diag, firstn_all. cbn [firstn]. rewrite app_nil_r, rev_app_distr, rev_involutive. reflexivity.
Qed.

(** Different trees. *)
Lemma roots_differ h r1 r2 p1 p2 n : integrity h -> par h r1 = None -> par h r2 = None -> at_path h r1 p1 n -> at_path h r2 p2 n -> r1 = r2.
Proof.
  intros I R1 R2 A1 A2. pose proof (root_spec h r1 p1 n (S (List.length p1 + List.length p2)) I R1 A1 ltac:(lia)).
  pose proof (root_spec h r2 p2 n (S (List.length p1 + List.length p2)) I R2 A2 ltac:(lia)). congruence.
Qed.

Lemma disjoint_trees h r1 r2 p1 p2 a b fuel : integrity h -> par h r1 = None -> par h r2 = None -> r1 <> r2 ->
  at_path h r1 p1 a -> at_path h r2 p2 b -> List.length p1 < fuel -> List.length p2 < fuel ->
  common_ancestor fuel h a b = Ok None /\ common_ancestor_with_trail fuel h a b = Ok None.
Proof.
  intros I R1 R2 N A1 A2 L1 L2.
  destruct (awi_spec h r1 p1 a fuel I R1 A1 L1) as (la & E1 & W1 & S1 & F1). destruct (awi_spec h r2 p2 b fuel I R2 A2 L2) as (lb & E2 & W2 & S2 & F2).
  assert (IA : forall n, In n (a :: map fst la) -> exists p, at_path h r1 p n).
  { intros n [<-|J]; [now exists p1|]. destruct (Forall2_In_r _ _ _ _ F1 J) as (p & _ & AP). now exists p. }
  assert (IB : forall n, In n (b :: map fst lb) -> exists p, at_path h r2 p n).
  { intros n [<-|J]; [now exists p2|]. destruct (Forall2_In_r _ _ _ _ F2 J) as (p & _ & AP). now exists p. }
  assert (DJ : forall n, In n (a :: map fst la) -> In n (b :: map fst lb) -> False).
  { intros n P Q. destruct (IA n P) as [p P']. destruct (IB n Q) as [q Q']. apply N. eapply roots_differ; [exact I|exact R1|exact R2|exact P'|exact Q']. }
  assert (NE : b <> a) by (intros ->; apply (DJ a); now left).
  unfold common_ancestor, common_ancestor_with_trail, ancestors_with_index. destruct (Nat.eqb_spec b a) as [?|_]; [congruence|]. rewrite E1, E2. cbn [bindr]. rewrite W1, W2. cbn [bindr].
  assert (NB : ~ In b (map fst la)) by (intros J; apply (DJ b); [now right|now left]). split.
  - destruct (mem b (map fst la)) eqn:M; [apply mem_In in M; tauto|]. f_equal.
    assert (DJ' : forall n, In n (map fst lb) -> ~ In n (a :: map fst la)) by (intros n J K; apply (DJ n); [exact K|now right]).
    clear - DJ'. induction (map fst lb) as [|n l IH]; [reflexivity|]. cbn [find].
    replace (mem n (a :: map fst la)) with false; [apply IH; intros z Z; apply DJ'; now right|].
    symmetry. apply not_true_iff_false. rewrite mem_In. apply DJ'. now left.
  - rewrite up_to_none by exact NB. f_equal.
    assert (DJ' : forall n, In n (map fst lb) -> ~ In n (a :: map fst la)) by (intros n J K; apply (DJ n); [exact K|now right]).
    clear - DJ'. generalize (@nil nat). induction lb as [|[n i] l IH]; intros acc; [reflexivity|]. cbn [meet]. cbn [map fst In] in DJ'.
    destruct (Nat.eqb_spec n a) as [->|]; [elim (DJ' a (or_introl eq_refl)); now left|].
    rewrite (proj2 (find_index_none n (map fst la))); [|intros J; apply (DJ' n (or_introl eq_refl)); now right]. apply IH. intros z Z. apply DJ'. now right.
Qed.

(** ** Height *)

Fixpoint th (t : tree) : nat := match t with T _ ts => (fix go l := match l with [] => 0 | x :: r => Nat.max (S (th x)) (go r) end) ts end.
Fixpoint fh (l : list tree) : nat := match l with [] => 0 | x :: r => Nat.max (S (th x)) (fh r) end.
Lemma th_eq n ts : th (T n ts) = fh ts.
Proof. cbn [th]. induction ts as [|t ts IH]; [reflexivity|]. cbn [fh]. now rewrite <- IH. Qed.

Fixpoint tsize (t : tree) : nat := match t with T _ ts => S ((fix go l := match l with [] => 0 | x :: r => tsize x + go r end) ts) end.
Fixpoint fsize (l : list tree) : nat := match l with [] => 0 | x :: r => tsize x + fsize r end.
Lemma tsize_eq n ts : tsize (T n ts) = S (fsize ts).
Proof. reflexivity. Qed.

Fixpoint gmax (d : nat) (g : list tree) : nat := match g with [] => 0 | t :: r => Nat.max (match th t with 0 => 0 | S k => d + S k end) (gmax d r) end.
Fixpoint smax (s : list (list tree)) : nat := match s with [] => 0 | g :: r => Nat.max (gmax (List.length r) g) (smax r) end.
Fixpoint ssize (s : list (list tree)) : nat := match s with [] => 0 | g :: r => 2 * fsize g + ssize r + 1 end.

Lemma gmax_fh d g : g <> [] -> Nat.max (S d) (gmax (S d) g) = d + fh g.
Proof.
  intros N. assert (X : Nat.max (S d) (gmax (S d) g) = Nat.max (S d) (d + fh g)).
  { clear N. induction g as [|t g IH]; [cbn [gmax fh]; lia|]. cbn [gmax fh]. destruct (th t); lia. }
  rewrite X. destruct g as [|t g]; [congruence|]. cbn [fh]. lia.
Qed.

Lemma height_loop_spec h : forall fuel g s k, Forall (rep h) g -> Forall (Forall (rep h)) s -> 2 * fsize g + ssize s < fuel ->
  height_loop fuel h (map tid g) (map (map tid) s) k = Ok (Nat.max k (Nat.max (gmax (List.length s) g) (smax s))).
Proof.
  induction fuel as [|fuel IH]; intros g s k F1 F2 L; [lia|]. destruct g as [|[n ts] g].
  - cbn [map height_loop]. destruct s as [|g s]; cbn [map]; [cbn [gmax smax]; f_equal; lia|]. inversion_clear F2 as [|? ? F3 F4]. cbn [ssize fsize] in L.
    rewrite IH by (auto; lia). cbn [smax gmax]. f_equal.
  - inversion_clear F1 as [|? ? R F1']. destruct (proj1 (rep_eq h n ts) R) as [K F]. cbn [map tid height_loop]. rewrite K. cbn [fsize] in L. rewrite tsize_eq in L.
    destruct ts as [|t ts].
    + cbn [map]. rewrite IH by (auto; cbn in L; lia). reflexivity.
    + change (map tid (t :: ts)) with (tid t :: map tid ts). cbv iota.
      pose proof (IH (t :: ts) (g :: s) (Nat.max k (List.length (map tid g :: map (map tid) s))) F ltac:(now constructor) ltac:(cbn [ssize]; lia)) as X.
      cbn [map] in X. rewrite X. clear X.
      cbn [List.length smax gmax]. rewrite map_length. f_equal. rewrite th_eq.
      assert (X := gmax_fh (List.length s) (t :: ts) ltac:(discriminate)). cbn [gmax] in X.
      assert (fh (t :: ts) <> 0) by (cbn [fh]; lia). destruct (fh (t :: ts)) as [|q]; [congruence|]. lia.
Qed.

Lemma height_spec h t fuel : rep h t -> 2 * tsize t < fuel -> height fuel h (tid t) = Ok (th t).
Proof.
  intros R L. unfold height. pose proof (height_loop_spec h fuel [t] [] 0) as X. cbn [map] in X. rewrite X.
  - cbn [List.length gmax smax]. f_equal. destruct (th t); lia.
  - now constructor.
  - constructor.
  - cbn. lia.
Qed.

Lemma fh_path h n ts : rep h (T n ts) -> Forall (fun t => rep h t -> (exists p m, at_path h (tid t) p m /\ List.length p = th t) /\
    (forall p m, at_path h (tid t) p m -> List.length p <= th t)) ts ->
  (exists p m, at_path h n p m /\ List.length p = fh ts) /\ (forall p m, at_path h n p m -> List.length p <= fh ts).
Proof.
  intros R F. destruct (proj1 (rep_eq h n ts) R) as [K FR]. split.
  - destruct ts as [|t0 ts0]; [exists [], n; split; [constructor|reflexivity]|].
    assert (X : exists j t, nth_error (t0 :: ts0) j = Some t /\ fh (t0 :: ts0) = S (th t)).
    { clear. revert t0. induction ts0 as [|t1 ts IH]; intros t0; [exists 0, t0; cbn [fh nth_error]; split; [reflexivity|lia]|].
      destruct (IH t1) as (j & t & E & X). cbn [fh] in *. destruct (Nat.max_spec (S (th t0)) (Nat.max (S (th t1)) (fh ts))) as [[_ M]|[_ M]]; rewrite M.
      - exists (S j), t. auto.
      - exists 0, t0. auto. }
    destruct X as (j & t & E & X). rewrite Forall_forall in F, FR. assert (J := nth_error_In _ _ E).
    destruct (F t J (FR t J)) as [(p & m & A & L) _]. exists (j :: p), m. split; [econstructor; [apply (rep_kids h n _ j t R E)|exact A]|]. cbn [List.length]. lia.
  - intros p m A. inversion A as [|? j c q ? E A']; subst; [cbn; lia|]. destruct (rep_kids_inv h n ts j c R E) as (t & E' & <- & RT).
    rewrite Forall_forall in F. destruct (F t (nth_error_In _ _ E') RT) as [_ X]. specialize (X q m A'). cbn [List.length].
    assert (Y : S (th t) <= fh ts). { clear - E'. revert j E'. induction ts as [|u ts IH]; intros [|j] E; cbn in E; try discriminate; cbn [fh]; [injection E as ->; lia|]. specialize (IH j E). lia. }
    lia.
Qed.

Lemma th_path h t : rep h t -> (exists p m, at_path h (tid t) p m /\ List.length p = th t) /\ (forall p m, at_path h (tid t) p m -> List.length p <= th t).
Proof.
  induction t as [n ts IH] using tree_ind2. intros R. rewrite th_eq. cbn [tid]. now apply fh_path.
Qed.

(** ** Equality *)

Lemma alike_step (R : nat -> nat -> Prop) h a h' b : alike R h a h' b <-> R a b /\ Forall2 (fun x y => alike R h x h' y) (kids h a) (kids h' b).
Proof.
  split.
  - intros [V L]. split; [apply (L []); constructor|].
    assert (X : forall j, match nth_error (kids h a) j, nth_error (kids h' b) j with
                          | Some x, Some y => alike R h x h' y | None, None => True | _, _ => False end).
    { intros j. destruct (nth_error (kids h a) j) as [x|] eqn:E1, (nth_error (kids h' b) j) as [y|] eqn:E2; auto.
      - split.
        + intros p. split.
          * intros [z A]. destruct (proj1 (V (j :: p))) as [w W]; [exists z; econstructor; eauto|]. inversion W; subst. exists w. congruence.
          * intros [z A]. destruct (proj2 (V (j :: p))) as [w W]; [exists z; econstructor; eauto|]. inversion W; subst. exists w. congruence.
        + intros p u v A1 A2. apply (L (j :: p)); econstructor; eauto.
      - destruct (proj1 (V [j])) as [w W]; [exists x; econstructor; eauto; constructor|]. inversion W; subst. congruence.
      - destruct (proj2 (V [j])) as [w W]; [exists y; econstructor; eauto; constructor|]. inversion W; subst. congruence. }
    clear - X. revert X. generalize (kids h a) (kids h' b). induction l as [|x l IH]; intros [|y m] X; try constructor; try (specialize (X 0); cbn in X; tauto).
    apply IH. intros j. apply (X (S j)).
  - intros [RR F]. split.
    + intros p. split; intros [z A].
      * inversion A as [|? j c q ? E A']; subst; [exists b; constructor|].
        assert (Y : exists y, nth_error (kids h' b) j = Some y /\ alike R h c h' y).
        { clear - E F. revert j E. induction F as [|x y l m P F IH]; intros [|j] E; cbn in E; try discriminate; [injection E as ->; exists y; auto|now apply IH]. }
        destruct Y as (y & E2 & [V _]). destruct (proj1 (V q)) as [w W]; [now exists z|]. exists w. econstructor; eauto.
      * inversion A as [|? j c q ? E A']; subst; [exists a; constructor|].
        assert (Y : exists y, nth_error (kids h a) j = Some y /\ alike R h y h' c).
        { clear - E F. revert j E. induction F as [|x y l m P F IH]; intros [|j] E; cbn in E; try discriminate; [injection E as ->; exists x; auto|now apply IH]. }
        destruct Y as (y & E2 & [V _]). destruct (proj2 (V q)) as [w W]; [now exists z|]. exists w. econstructor; eauto.
    + intros p x y A1 A2. inversion A1 as [|? j c q ? E A']; subst; inversion A2 as [|? j2 c2 q2 ? E2 A2']; subst; [exact RR|].
      assert (Y : alike R h c h' c2).
      { clear - E E2 F. revert j E E2. induction F as [|u v l m P F IH]; intros [|j] E E2; cbn in E, E2; try discriminate; [congruence|eapply IH; eauto]. }
      eapply (proj2 Y); eauto.
Qed.

Lemma th_kids n ts t : In t ts -> th t < th (T n ts).
Proof. rewrite th_eq. induction ts as [|u ts IH]; intros []; cbn [fh]; [subst; lia|]. specialize (IH H). lia. Qed.

Lemma equals_spec beq h : forall t b fuel, rep h t -> th t < fuel ->
  exists v, equals beq fuel h (tid t) b = Ok v /\ (v = true <-> alike (same_node beq h h) h (tid t) h b).
Proof.
  induction t as [n ts IH] using tree_ind2. intros b fuel R L. destruct fuel as [|fuel]; [lia|]. cbn [tid]. destruct (proj1 (rep_eq h n ts) R) as [K F].
  cbn [equals]. destruct (Nat.eqb_spec (cls h n) (cls h b)) as [C|C]; cbn [negb].
  2:{ exists false. split; [reflexivity|]. split; [discriminate|]. rewrite alike_step. intros [[X _] _]. tauto. }
  destruct (Nat.eqb_spec (List.length (kids h n)) (List.length (kids h b))) as [LN|LN]; cbn [negb].
  2:{ exists false. split; [reflexivity|]. split; [discriminate|]. rewrite alike_step. intros [_ X]. apply Forall2_len in X. tauto. }
  destruct (beq (body h n) (body h b)) eqn:BE; cbn [negb].
  2:{ exists false. split; [reflexivity|]. split; [discriminate|]. rewrite alike_step. intros [[_ X] _]. congruence. }
  set (all := fix all (l m : list nat) : res bool := match l with [] => Ok true | x :: l => match m with [] => Ok true | y :: m => let! e := equals beq fuel h x y in if e then all l m else Ok false end end).
  assert (X : forall us m, (forall t, In t us -> In t ts) -> List.length us = List.length m ->
    exists v, all (map tid us) m = Ok v /\ (v = true <-> Forall2 (fun x y => alike (same_node beq h h) h x h y) (map tid us) m)).
  { rewrite Forall_forall in IH, F. induction us as [|u us IHu]; intros [|y m] S LL; cbn in LL; try lia.
    - exists true. split; [reflexivity|]. split; [constructor|auto].
    - cbn [map all]. assert (UT := S u (or_introl eq_refl)). destruct (IH u UT y fuel (F u UT) ltac:(pose proof (th_kids n ts u UT); lia)) as (v & -> & V).
      cbn [bindr]. destruct v.
      + destruct (IHu m ltac:(intros; apply S; now right) ltac:(lia)) as (v & -> & V2). exists v. split; [reflexivity|]. rewrite V2. split; [constructor; [now apply V|assumption]|].
        intros X. now inversion X.
      + exists false. split; [reflexivity|]. split; [discriminate|]. intros X. inversion X; subst. apply V. assumption. }
  rewrite K in LN |- *. rewrite map_length in LN. destruct (X ts (kids h b) ltac:(auto) LN) as (v & E & V). exists v. split; [exact E|].
  rewrite V, alike_step, K. unfold same_node at 2. tauto.
Qed.

(** ** Copies *)

Lemma old_path h h' n p u : integrity h -> (forall x, x < next h -> kids h' x = kids h x) -> n < next h ->
  (at_path h n p u <-> at_path h' n p u) /\ (at_path h n p u -> u < next h).
Proof.
  intros I K. revert n. induction p as [|i p IH]; intros n L.
  - split; [split; intros A; inversion A; subst; constructor|intros A; inversion A; now subst].
  - assert (KL : forall c, nth_error (kids h n) i = Some c -> c < next h).
    { intros c E. destruct (Nat.lt_ge_cases c (next h)) as [|G]; [assumption|]. destruct (i_fresh h I c G) as [_ X]. elim X. exists n. eapply nth_error_In; eauto. }
    split; [split|]; intros A; inversion A as [|? ? c ? ? E A']; subst.
    + econstructor; [rewrite K by exact L; exact E|]. apply (IH c (KL c E)). exact A'.
    + rewrite K in E by exact L. econstructor; [exact E|]. apply (IH c (KL c E)). exact A'.
    + exact (proj2 (IH c (KL c E)) A').
Qed.

Definition twin (h h' : heap B) (x y : nat) : Prop := cls h x = cls h' y /\ body h x = body h' y.
Definition newer (lo : nat) (h : heap B) (m : nat) : Prop := forall p v, at_path h m p v -> lo <= v.

Lemma alike_frame_r h n h1 h2 m : integrity h1 -> (forall x, x < next h1 -> kids h2 x = kids h1 x /\ cls h2 x = cls h1 x /\ body h2 x = body h1 x) -> m < next h1 ->
  alike (twin h h1) h n h1 m -> alike (twin h h2) h n h2 m.
Proof.
  intros I K L [V T]. assert (OP := fun p u => old_path h1 h2 m p u I (fun x X => proj1 (K x X)) L). split.
  - intros p. rewrite V. split; intros [y A]; exists y; apply OP; exact A.
  - intros p x y A1 A2. apply OP in A2. destruct (T p x y A1 A2) as [T1 T2]. destruct (K y (proj2 (OP p y) A2)) as (_ & C & D). split; congruence.
Qed.
Lemma alike_frame_l h h1 n h2 m : integrity h -> (forall x, x < next h -> kids h1 x = kids h x /\ cls h1 x = cls h x /\ body h1 x = body h x) -> n < next h ->
  alike (twin h1 h2) h1 n h2 m -> alike (twin h h2) h n h2 m.
Proof.
  intros I K L [V T]. assert (OP := fun p u => old_path h h1 n p u I (fun x X => proj1 (K x X)) L). split.
  - intros p. rewrite <- V. split; intros [y A]; exists y; apply OP; exact A.
  - intros p x y A1 A2. destruct (T p x y (proj1 (proj1 (OP p x)) A1) A2) as [T1 T2]. destruct (K x (proj2 (OP p x) A1)) as (_ & C & D). split; congruence.
Qed.

Lemma untouched_trans h h1 h2 : next h <= next h1 -> untouched h h1 -> untouched h1 h2 -> untouched h h2.
Proof. intros L A1 A2 x X. destruct (A1 x X) as (?&?&?&?). destruct (A2 x ltac:(lia)) as (?&?&?&?). repeat split; congruence. Qed.

Lemma set_parents_rest h l p : cls (set_parents h l p) = cls h /\ body (set_parents h l p) = body h.
Proof. unfold set_parents. revert h. induction l as [|x l IH]; intros h; [auto|]. cbn [fold_left]. destruct (IH (set_parent h x (Some p))) as [-> ->]. auto. Qed.

Definition copied (h : heap B) (n : nat) (h' : heap B) (m : nat) : Prop :=
  next h <= m < next h' /\ untouched h h' /\ integrity h' /\ par h' m = None /\ alike (twin h h') h n h' m /\ newer (next h) h' m.

Lemma copy_spec : forall t h fuel, integrity h -> rep h t -> tid t < next h -> th t < fuel ->
  exists h' m, copy fuel h (tid t) = Ok (h', m) /\ copied h (tid t) h' m.
Proof.
  induction t as [n ts IH] using tree_ind2. intros h fuel I R LT L. destruct fuel as [|fuel]; [lia|]. cbn [tid] in *. destruct (proj1 (rep_eq h n ts) R) as [K F].
  cbn [copy]. set (go := fix go (h : heap B) (l : list nat) : res (heap B * list nat) := match l with [] => Ok (h, []) | x :: r => let! (h, y) := copy fuel h x in let! (h, r) := go h r in Ok (h, y :: r) end).
  assert (X : forall us h1, (forall t, In t us -> In t ts) -> integrity h1 -> next h <= next h1 -> untouched h h1 ->
    exists h' l', go h1 (map tid us) = Ok (h', l') /\ next h1 <= next h' /\ untouched h1 h' /\ integrity h' /\ NoDup l' /\
      (forall y, In y l' -> next h1 <= y < next h' /\ par h' y = None /\ newer (next h) h' y) /\
      Forall2 (fun t y => alike (twin h h') h (tid t) h' y) us l').
  { rewrite Forall_forall in IH, F. induction us as [|u us IHu]; intros h1 SU I1 N1 U1.
    - exists h1, []. split; [reflexivity|]. split; [lia|]. split; [intros x _; auto|]. split; [exact I1|]. split; [constructor|]. split; [intros y []|constructor].
    - assert (UT := SU u (or_introl eq_refl)). assert (UL : tid u < next h).
      { destruct (Nat.lt_ge_cases (tid u) (next h)) as [|G]; [assumption|]. destruct (i_fresh h I _ G) as [_ X]. elim X. exists n. rewrite K. now apply in_map. }
      assert (RU : rep h1 u).
      { clear - I U1 UL F UT. assert (Y := F u UT). clear UT F. revert UL Y. induction u as [m us IHm] using tree_ind2. intros UL Y. cbn in UL. apply rep_eq in Y as [KM FM]. apply rep_eq.
        destruct (U1 m UL) as [-> _]. split; [exact KM|]. rewrite Forall_forall in *. intros t T. apply IHm; auto.
        destruct (Nat.lt_ge_cases (tid t) (next h)) as [|G]; [assumption|]. destruct (i_fresh h I _ G) as [_ X]. elim X. exists m. rewrite KM. now apply in_map. }
      destruct (IH u UT h1 fuel I1 RU ltac:(lia) ltac:(pose proof (th_kids n ts u UT); lia)) as (h2 & y & E & (YL & U2 & I2 & PY & A2 & NY)).
      destruct (IHu h2 ltac:(intros; apply SU; now right) I2 ltac:(lia) ltac:(eapply untouched_trans; eauto)) as (h3 & r & E3 & N3 & U3 & I3 & ND & PR & F3).
      exists h3, (y :: r). cbn [map go]. rewrite E. cbn [bindr]. rewrite E3. split; [reflexivity|]. split; [lia|]. split; [eapply untouched_trans; [|exact U2|exact U3]; lia|].
      split; [exact I3|]. split; [constructor; [intros J; destruct (PR y J); lia|exact ND]|]. split.
      + intros z [<-|J].
        * split; [lia|]. split; [destruct (U3 y ltac:(lia)) as (_ & -> & _); exact PY|].
          intros p v A. apply (old_path h2 h3 y p v I2 (fun x X => proj1 (U3 x X)) ltac:(lia)) in A. specialize (NY p v A). lia.
        * destruct (PR z J) as (? & ? & ?). split; [lia|auto].
      + constructor; [|exact F3]. apply (alike_frame_r h (tid u) h2 h3 y I2).
        * intros x X. destruct (U3 x X) as (? & _ & ? & ?). auto.
        * lia.
        * apply (alike_frame_l h h1 (tid u) h2 y I); auto. intros x X. destruct (U1 x X) as (? & _ & ? & ?). auto. }
  rewrite K. destruct (X ts h ltac:(auto) I ltac:(lia) ltac:(intros x _; auto)) as (h' & l & E & NX & U & I' & ND & PL & FA). rewrite E. cbn [bindr].
  destruct (U n LT) as (KN & _ & -> & ->).
  assert (I2 : integrity (fst (new_node h' (cls h n) (body h n) l))).
  { apply new_integrity; auto. intros y J. destruct (PL y J) as (? & P & _). split; [lia|]. intros (p & Q). pose proof (i_parent h' I' _ _ Q). congruence. }
  unfold new_node in *. cbn [fst] in I2. set (h1 := Heap _ _ _ _ _) in *. set (m := next h') in *. exists (set_parents h1 l m), m. split; [reflexivity|].
  destruct (set_parents_kids h1 l m) as (SK & SN & _). destruct (set_parents_rest h1 l m) as (SC & SB).
  assert (ML : ~ In m l) by (intros J; destruct (PL m J); unfold m in *; lia).
  assert (FR : forall x, x < next h' -> kids (set_parents h1 l m) x = kids h' x /\ cls (set_parents h1 l m) x = cls h' x /\ body (set_parents h1 l m) x = body h' x).
  { intros x X1. rewrite SK, SC, SB. cbn. rewrite !upd_other by (unfold m; lia). auto. }
  assert (NXT : next (set_parents h1 l m) = S m) by (rewrite SN; reflexivity).
  split; [rewrite NXT; unfold m; lia|]. split.
  { intros x X1. destruct (FR x ltac:(lia)) as (-> & -> & ->). destruct (U x X1) as (-> & U2 & -> & ->). repeat split; auto.
    rewrite set_parents_par. destruct (in_dec Nat.eq_dec x l) as [J|J]; [destruct (PL x J); lia|]. cbn. rewrite upd_other by (unfold m; lia). exact U2. }
  split; [exact I2|]. split.
  { rewrite set_parents_par. destruct (in_dec Nat.eq_dec m l); [tauto|]. cbn. apply upd_same. }
  assert (KM : kids (set_parents h1 l m) m = l) by (rewrite SK; cbn; apply upd_same). split.
  - apply alike_step. split; [split; [rewrite SC|rewrite SB]; cbn; now rewrite upd_same|]. rewrite K, KM.
    assert (Z : Forall2 (fun t y => alike (twin h (set_parents h1 l m)) h (tid t) (set_parents h1 l m) y) ts l).
    { clear - FA PL FR I'. revert FR. generalize (set_parents h1 l m). intros h2 FR. clear h1. revert FA PL. generalize ts. intros us FA. induction FA as [|t y us l' P FA IHF]; intros PL; constructor.
      - eapply alike_frame_r; [exact I'|exact FR|destruct (PL y (or_introl eq_refl)); lia|exact P].
      - apply IHF. intros z Z. apply PL. now right. }
    clear - Z. revert Z. generalize (set_parents h1 l m). intros h2 Z. clear h1. induction Z; cbn [map]; constructor; auto.
  - intros p v A. inversion A as [|? j y q ? EY AY]; subst; [unfold m; lia|]. rewrite KM in EY. assert (J := nth_error_In _ _ EY). destruct (PL y J) as (YL & _ & NW).
    apply (NW q v). apply (old_path h' (set_parents h1 l m) y q v I' (fun x X => proj1 (FR x X)) ltac:(lia)). exact AY.
Qed.
End More.
