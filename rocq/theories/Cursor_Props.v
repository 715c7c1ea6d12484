(** Editing what the cursor has selected: the property C101. *)
From Coq Require Import List ZArith Arith Bool Sorting.Sorted Lia ZifyBool.
From Verif Require Import Base Node_Model Node_Spec Node_Proofs Node_Nav Node_More Node_Props
  Range_Model Range_Spec Range_Proofs Range_Machine Range_Nodes Range_Extract Range_Member Range_Edit Range_Props
  Find_Model Find_Spec Find_Proofs Find_Props Cursor_Model Cursor_Spec.
Import ListNotations.
Notation upto := Range_Spec.upto.

(** ** Paths and positions *)

Lemma stands_cons : forall t k p n, stands t (k :: p) n <-> exists c, nth_error (pkids t) k = Some c /\ stands c p n.
Proof.
  intros [i h tl kids] k p n. split.
  - intros A. inversion A; subst. eauto.
  - intros (c & E & A). econstructor; eauto.
Qed.
Lemma stands_nil : forall t n, stands t [] n <-> n = t.
Proof. intros t n. split; [intros A; inversion A; reflexivity|intros ->; constructor]. Qed.
Lemma stands_fun : forall p t m n, stands t p m -> stands t p n -> m = n.
Proof.
  induction p as [|k p IH]; intros t m n A B.
  - apply stands_nil in A, B. congruence.
  - apply stands_cons in A as (c & E & A). apply stands_cons in B as (c' & E' & B). assert (c = c') by congruence. subst. eauto.
Qed.
Lemma stands_app : forall p q t n, stands t (p ++ q) n <-> exists m, stands t p m /\ stands m q n.
Proof.
  induction p as [|k p IH]; intros q t n; cbn [app].
  - split; [intros A; exists t; split; [constructor|exact A]|intros (m & A & B); apply stands_nil in A; subst; exact B].
  - rewrite stands_cons. split.
    + intros (c & E & A). apply IH in A as (m & A & B). exists m. split; [|exact B]. apply stands_cons. eauto.
    + intros (m & A & B). apply stands_cons in A as (c & E & A). exists c. split; [exact E|]. apply IH. eauto.
Qed.

Lemma nth_flat : forall A C (f : A -> list C) l k x, nth_error l k = Some x ->
  exists r s, flat_map f l = r ++ f x ++ s /\ r = flat_map f (firstn k l) /\ s = flat_map f (skipn (S k) l).
Proof.
  intros A C f l. induction l as [|y l IH]; intros [|k] x E; try discriminate; cbn [nth_error] in E.
  - injection E as ->. exists [], (flat_map f l). split; [reflexivity|split; reflexivity].
  - destruct (IH k x E) as (r & s & E1 & -> & ->). exists (f y ++ flat_map f (firstn k l)), (flat_map f (skipn (S k) l)). cbn [flat_map]. rewrite E1, <- app_assoc. split; [reflexivity|split; reflexivity].
Qed.

Lemma spans_eq : forall t, spans t = olist (phead t) ++ flat_map spans (pkids t) ++ olist (ptail t).
Proof. intros [i h tl k]. reflexivity. Qed.

Lemma stands_spans : forall p t n, stands t p n -> exists a b, spans t = a ++ spans n ++ b.
Proof.
  induction p as [|k p IH]; intros t n A.
  - apply stands_nil in A. subst. exists [], []. now rewrite app_nil_r.
  - apply stands_cons in A as (c & E & A). destruct (IH _ _ A) as (a & b & E1). destruct (nth_flat _ _ spans _ _ _ E) as (r & s & E2 & _).
    rewrite spans_eq, E2, E1. exists (olist (phead t) ++ r ++ a), (b ++ s ++ olist (ptail t)). rewrite <- !app_assoc. reflexivity.
Qed.

Lemma nth_two : forall (l : list pn) i j a b, i < j -> nth_error l i = Some a -> nth_error l j = Some b ->
  exists x y z, flat_map spans l = x ++ spans a ++ y ++ spans b ++ z.
Proof.
  induction l as [|c l IH]; intros [|i] [|j] a b L E1 E2; try discriminate; try lia; cbn [nth_error] in *.
  - injection E1 as ->. destruct (nth_flat _ _ spans _ _ _ E2) as (r & s & E & _). exists [], r, s. cbn [flat_map app]. now rewrite E.
  - destruct (IH i j a b ltac:(lia) E1 E2) as (x & y & z & E). exists (spans c ++ x), y, z. cbn [flat_map]. rewrite E, <- app_assoc. reflexivity.
Qed.

Lemma left_spans : forall t x y a b, left_of x y -> stands t x a -> stands t y b ->
  exists u v w, spans t = u ++ spans a ++ v ++ spans b ++ w.
Proof.
  intros t x y a b (p & i & j & r & s & -> & -> & L) A B.
  apply stands_app in A as (m & M & A). apply stands_app in B as (m' & M' & B). assert (m' = m) by (eapply stands_fun; eauto). subst m'.
  apply stands_cons in A as (c & E & A). apply stands_cons in B as (c' & E' & B).
  destruct (nth_two _ _ _ _ _ L E E') as (u & v & w & F). destruct (stands_spans _ _ _ M) as (m1 & m2 & G).
  destruct (stands_spans _ _ _ A) as (a1 & a2 & GA). destruct (stands_spans _ _ _ B) as (b1 & b2 & GB).
  rewrite G, spans_eq, F, GA, GB. exists (m1 ++ olist (phead m) ++ u ++ a1), (a2 ++ v ++ b1), (b2 ++ w ++ olist (ptail m) ++ m2).
  repeat rewrite <- app_assoc. reflexivity.
Qed.
Lemma above_spans : forall t x y a b, above x y -> stands t x a -> stands t y b ->
  exists u v, spans a = u ++ spans b ++ v.
Proof.
  intros t x y a b (i & r & ->) A B. apply stands_app in B as (m & M & B). assert (m = a) by (eapply stands_fun; eauto). subst m.
  eapply stands_spans; eauto.
Qed.

Lemma increasing_mid : forall a f l b, increasing f (a ++ l ++ b) -> exists g, f <= g /\ increasing g l.
Proof.
  induction a as [|[i j] a IH]; intros f l b I; cbn [app increasing] in I.
  - exists f. split; [lia|]. revert f I. induction l as [|[i j] l IH]; intros f I; cbn [app increasing] in *; [exact Logic.I|]. destruct I as (A & C & D). auto.
  - destruct I as (A & C & D). destruct (IH _ _ _ D) as (g & G & H). exists g. split; [lia|exact H].
Qed.
Lemma increasing_first : forall l f i j, increasing f l -> In (i, j) l -> f <= i /\ i < j.
Proof.
  induction l as [|[u v] l IH]; intros f i j I M; [destruct M|]. cbn [increasing] in I. destruct I as (A & C & D). destruct M as [M|M].
  - injection M as -> ->. lia.
  - specialize (IH _ _ _ D M). lia.
Qed.
Lemma increasing_two : forall a f i j b k l c, increasing f (a ++ (i, j) :: b ++ (k, l) :: c) -> j <= k.
Proof.
  induction a as [|[u v] a IH]; intros f i j b k l c I; cbn [app increasing] in I.
  - destruct I as (_ & _ & I). apply (increasing_first _ _ k l) in I; [lia|]. apply in_app_iff. right. now left.
  - destruct I as (_ & _ & I). eapply IH; exact I.
Qed.

(** Where nodes are, compared with where they begin and end. *)
Lemma above_begins : forall d x y a b i j, laid_out d -> above x y -> stands d x a -> stands d y b -> begins a i -> begins b j -> i <= j.
Proof.
  intros d x y a b i j [_ I] A SA SB BA BB. destruct (above_spans _ _ _ _ _ A SA SB) as (u & v & E). destruct (stands_spans _ _ _ SA) as (u' & v' & E').
  rewrite E' in I. apply increasing_mid in I as (g & _ & I). destruct BA as (i' & r & EA). destruct BB as (j' & s & EB).
  rewrite E, EB in EA. destruct u as [|[k l] u]; cbn [app] in EA; [injection EA as <- _ _; lia|]. injection EA as -> -> EA.
  rewrite E, EB in I. cbn [app] in I. pose proof (increasing_two [] g i i' u j j' (s ++ v) I). pose proof (increasing_first _ _ i i' I ltac:(now left)). lia.
Qed.
Lemma left_begins : forall d x y a b i j, laid_out d -> left_of x y -> stands d x a -> stands d y b -> ends a i -> begins b j -> i <= j.
Proof.
  intros d x y a b i j [_ I] A SA SB (i' & r & EA) (j' & s & EB). destruct (left_spans _ _ _ _ _ A SA SB) as (u & v & w & E).
  rewrite E, EA, EB in I. replace (u ++ (r ++ [(i', i)]) ++ v ++ ((j, j') :: s) ++ w) with ((u ++ r) ++ (i', i) :: v ++ (j, j') :: (s ++ w)) in I by (repeat rewrite <- app_assoc; reflexivity).
  eapply increasing_two; exact I.
Qed.
Lemma begins_before_ends : forall d x a i j, laid_out d -> stands d x a -> begins a i -> ends a j -> i < j.
Proof.
  intros d x a i j [_ I] SA A B. destruct (stands_spans _ _ _ SA) as (u & v & E). rewrite E in I. apply increasing_mid in I as (g & _ & I).
  destruct (tree_bounds a g i j I A B) as (_ & H & _). exact H.
Qed.
Lemma before_begins : forall d x y a b i j, laid_out d -> before x y -> stands d x a -> stands d y b -> begins a i -> begins b j -> i <= j.
Proof.
  intros d x y a b i j L [A|A] SA SB BA BB; [eapply above_begins; eauto|].
  destruct (begins_ends _ _ BA) as (k & K). pose proof (left_begins _ _ _ _ _ _ _ L A SA SB K BB). pose proof (begins_before_ends _ _ _ _ _ L SA BA K). lia.
Qed.

(** ** The order of the lists of nodes *)

Lemma flat_split : forall A C (f : A -> list C) l l1 d l2, flat_map f l = l1 ++ d :: l2 ->
  exists k c m1 m2, nth_error l k = Some c /\ f c = m1 ++ d :: m2 /\
    l1 = flat_map f (firstn k l) ++ m1 /\ l2 = m2 ++ flat_map f (skipn (S k) l).
Proof.
  intros A C f l. induction l as [|x l IH]; intros l1 d l2 E; cbn [flat_map] in E; [destruct l1; discriminate|].
  destruct (Compare_dec.le_lt_dec (List.length (f x)) (List.length l1)) as [L|L].
  - assert (X : exists r, l1 = f x ++ r /\ flat_map f l = r ++ d :: l2).
    { clear IH. revert l1 L E. induction (f x) as [|y m IHm]; intros [|z l1] L E; cbn [app List.length] in *; try lia.
      - exists []. auto.
      - exists (z :: l1). auto.
      - injection E as -> E. destruct (IHm l1 ltac:(lia) E) as (r & -> & F). exists r. auto. }
    destruct X as (r & -> & F). destruct (IH _ _ _ F) as (k & c & m1 & m2 & E1 & E2 & -> & ->). exists (S k), c, m1, m2. cbn [nth_error firstn skipn flat_map]. rewrite <- app_assoc. auto.
  - assert (X : exists r, f x = l1 ++ d :: r /\ l2 = r ++ flat_map f l).
    { clear IH. revert l1 L E. induction (f x) as [|y m IHm]; intros [|z l1] L E; cbn [app List.length] in *; try lia.
      - injection E as -> <-. exists m. auto.
      - injection E as -> E. destruct (IHm l1 ltac:(lia) E) as (r & -> & F). exists r. auto. }
    destruct X as (r & F & ->). exists 0, x, l1, r. cbn [nth_error firstn skipn flat_map app]. auto.
Qed.

Lemma nth_firstn : forall A (l : list A) j k x, j < k -> nth_error l j = Some x -> In x (firstn k l).
Proof. intros A l. induction l as [|y l IH]; intros [|j] [|k] x L E; try discriminate; try lia; cbn in *; [injection E as ->; auto|right; apply (IH j); [lia|exact E]]. Qed.
Lemma nth_skipn : forall A (l : list A) j k x, k < j -> nth_error l j = Some x -> In x (skipn (S k) l).
Proof.
  intros A l. induction l as [|y l IH]; intros [|j] [|k] x L E; try discriminate; try lia; cbn [nth_error] in *.
  - cbn. eapply nth_error_In; exact E.
  - rewrite skipn_cons. apply (IH j); [lia|exact E].
Qed.

Lemma stands_pre : forall p t n, stands t p n -> In n (pre t).
Proof.
  induction p as [|k p IH]; intros t n A; rewrite pre_eq.
  - apply stands_nil in A. left. auto.
  - apply stands_cons in A as (c & E & A). right. apply in_flat_map. exists c. split; [eapply nth_error_In; eauto|auto].
Qed.
Lemma post_eq : forall t, post t = flat_map post (pkids t) ++ [t].
Proof. intros [i h tl k]. reflexivity. Qed.
Lemma stands_post : forall p t n, stands t p n -> In n (post t).
Proof.
  induction p as [|k p IH]; intros t n A; rewrite post_eq; apply in_app_iff.
  - apply stands_nil in A. right. left. auto.
  - apply stands_cons in A as (c & E & A). left. apply in_flat_map. exists c. split; [eapply nth_error_In; eauto|auto].
Qed.

Lemma before_cons : forall i a j b, before (i :: a) (j :: b) <-> i < j \/ i = j /\ before a b.
Proof.
  intros i a j b. pose proof (Range_Proofs.upto_cons i a j b) as U. unfold upto in U. split.
  - intros H. destruct (proj1 U (or_intror H)) as [|[-> [->|]]]; auto. exfalso. destruct H as [H|H].
    + now apply above_neq in H.
    + destruct H as (p & x & y & r & s & E & F & L). assert (x :: r = y :: s) by (eapply app_inv_head; rewrite <- E; exact F). injection H. lia.
  - intros H. destruct (proj2 U) as [E|]; auto; [destruct H as [|[-> H]]; auto|]. injection E as -> ->. exfalso. destruct H as [|[_ H]]; [lia|]. destruct H as [H|H].
    + now apply above_neq in H.
    + destruct H as (p & x & y & r & s & E & F & L). assert (x :: r = y :: s) by (eapply app_inv_head; rewrite <- E; exact F). injection H. lia.
Qed.

Lemma pre_path : forall t l1 d l2, pre t = l1 ++ d :: l2 -> exists x, stands t x d /\ forall y m, stands t y m -> before y x -> In m l1.
Proof.
  induction t as [i h tl kids IH] using pn_ind2. intros l1 d l2 E. rewrite pre_eq in E. cbn [pkids] in E. destruct l1 as [|z l1]; cbn [app] in E.
  - injection E as <- _. exists []. split; [constructor|]. intros y m _ B. exfalso. destruct B as [B|(p & a & b & r & s & _ & F & _)]; [now apply above_nil_r in B|destruct p; discriminate].
  - injection E as <- E. destruct (flat_split _ _ _ _ _ _ _ E) as (k & c & m1 & m2 & N & EC & -> & ->). rewrite Forall_forall in IH.
    destruct (IH c (nth_error_In _ _ N) _ _ _ EC) as (x & SX & H). exists (k :: x). split; [econstructor; eauto|]. intros [|j y] m SM B.
    + apply stands_nil in SM. left. auto.
    + right. apply stands_cons in SM as (c' & N' & SM). cbn [pkids] in N'. apply before_cons in B. apply in_app_iff. destruct B as [B|[-> B]].
      * left. apply in_flat_map. exists c'. split; [eapply nth_firstn; eauto|eapply stands_pre; eauto].
      * right. assert (c' = c) by congruence. subst. eauto.
Qed.

Definition later (w y : list nat) : Prop := above w y \/ left_of y w.
Lemma left_nil : forall a, ~ left_of a [] /\ ~ left_of [] a.
Proof. intros a. split; intros (p & i & j & r & s & E & F & _); destruct p; discriminate. Qed.
Lemma later_cons : forall i a j b, later (j :: b) (i :: a) -> i < j \/ i = j /\ later b a.
Proof.
  intros i a j b [A|A].
  - apply above_cons2 in A as [-> A]. right. split; [reflexivity|now left].
  - apply left_of_cases in A. destruct A as [A|[-> A]]; [now left|right]. split; [reflexivity|now right].
Qed.
Lemma post_path : forall t l1 d l2, post t = l1 ++ d :: l2 -> exists y, stands t y d /\ forall w m, stands t w m -> later w y -> In m l2.
Proof.
  induction t as [i h tl kids IH] using pn_ind2. intros l1 d l2 E. rewrite post_eq in E. cbn [pkids] in E. destruct l2 as [|z l2 _] using rev_ind.
  - apply app_inj_tail in E. destruct E as [_ <-]. exists []. split; [constructor|]. intros w m _ [B|B]; exfalso; [now apply above_nil_r in B|now apply left_nil in B].
  - rewrite app_comm_cons, app_assoc in E. apply app_inj_tail in E. destruct E as [E <-]. destruct (flat_split _ _ _ _ _ _ _ E) as (k & c & m1 & m2 & N & EC & -> & ->). rewrite Forall_forall in IH.
    destruct (IH c (nth_error_In _ _ N) _ _ _ EC) as (x & SX & H). exists (k :: x). split; [econstructor; eauto|]. intros [|j y] m SM B; apply in_app_iff.
    + apply stands_nil in SM. right. left. auto.
    + left. apply stands_cons in SM as (c' & N' & SM). cbn [pkids] in N'. apply later_cons in B. apply in_app_iff. destruct B as [B|[-> B]].
      * right. apply in_flat_map. exists c'. split; [eapply nth_skipn; eauto|eapply stands_post; eauto].
      * left. assert (c' = c) by congruence. subst. eauto.
Qed.

Lemma right_first : forall p d, laid_out d -> exists r, find_descendant_right p d = Ok r /\
  match r with Some a => exists x, first_from d p x a | None => forall x a i, x <> [] -> stands d x a -> begins a i -> i < p end.
Proof.
  intros p d L. destruct (C56_right p d L) as ([a|] & E & H); eexists; (split; [exact E|]).
  - destruct H as (l1 & l2 & i & F & BA & PI & H). assert (PE : pre d = (d :: l1) ++ a :: l2) by (rewrite pre_eq, F; reflexivity).
    assert (X : exists x, x <> [] /\ stands d x a /\ forall y m, y <> [] -> stands d y m -> before y x -> In m l1).
    { destruct (flat_split _ _ _ _ _ _ _ F) as (k & c & m1 & m2 & N & EC & -> & ->). destruct (pre_path _ _ _ _ EC) as (x & SX & HX). exists (k :: x). split; [discriminate|]. split; [apply stands_cons; eauto|].
      intros [|j y] m NE SM B; [congruence|]. apply stands_cons in SM as (c' & N' & SM). apply before_cons in B. apply in_app_iff. destruct B as [B|[-> B]].
      * left. apply in_flat_map. exists c'. split; [eapply nth_firstn; eauto|eapply stands_pre; eauto].
      * right. assert (c' = c) by congruence. subst. eauto. }
    destruct X as (x & NE & SX & HX). exists x. split; [exact NE|]. split; [exact SX|]. split; [eauto|]. eauto.
  - intros [|k x] a i NE SA BA; [congruence|]. apply stands_cons in SA as (c & N & SA). apply (H a i); [|exact BA]. apply in_flat_map. exists c. split; [eapply nth_error_In; eauto|eapply stands_pre; eauto].
Qed.
Lemma left_last : forall q d, laid_out d -> exists r, find_descendant_left q d = Ok r /\
  match r with Some b => exists y, last_to d q y b | None => forall x a j, x <> [] -> stands d x a -> ends a j -> q < j end.
Proof.
  intros q d L. destruct (C56_left q d L) as ([a|] & E & H); eexists; (split; [exact E|]).
  - destruct H as (l1 & l2 & i & F & BA & PI & H).
    assert (X : exists x, x <> [] /\ stands d x a /\ forall y m, y <> [] -> stands d y m -> later y x -> In m l2).
    { destruct (flat_split _ _ _ _ _ _ _ F) as (k & c & m1 & m2 & N & EC & -> & ->). destruct (post_path _ _ _ _ EC) as (x & SX & HX). exists (k :: x). split; [discriminate|]. split; [apply stands_cons; eauto|].
      intros [|j y] m NE SM B; [congruence|]. apply stands_cons in SM as (c' & N' & SM). apply later_cons in B. apply in_app_iff. destruct B as [B|[-> B]].
      * right. apply in_flat_map. exists c'. split; [eapply nth_skipn; eauto|eapply stands_post; eauto].
      * left. assert (c' = c) by congruence. subst. eauto. }
    destruct X as (x & NE & SX & HX). exists x. split; [exact NE|]. split; [exact SX|]. split; [eauto|]. eauto.
  - intros [|k x] a i NE SA BA; [congruence|]. apply stands_cons in SA as (c & N & SA). apply (H a i); [|exact BA]. apply in_flat_map. exists c. split; [eapply nth_error_In; eauto|eapply stands_post; eauto].
Qed.

Lemma first_unique : forall d p x a x' a', first_from d p x a -> first_from d p x' a' -> x = x' /\ a = a'.
Proof.
  intros d p x a x' a' (NE & SA & (i & BA & PI) & H) (NE' & SA' & (i' & BA' & PI') & H').
  destruct (upto_total x x') as [[->|B]|[->|B]].
  - split; [reflexivity|eapply stands_fun; eauto].
  - pose proof (H' _ _ _ NE SA B BA). lia.
  - split; [reflexivity|eapply stands_fun; eauto].
  - pose proof (H _ _ _ NE' SA' B BA'). lia.
Qed.
Lemma later_total : forall x y, x = y \/ later x y \/ later y x.
Proof. intros x y. unfold later. destruct (path_cases x y) as [|[|[|[|]]]]; auto. Qed.
Lemma last_unique : forall d p x a x' a', last_to d p x a -> last_to d p x' a' -> x = x' /\ a = a'.
Proof.
  intros d p x a x' a' (NE & SA & (i & BA & PI) & H) (NE' & SA' & (i' & BA' & PI') & H').
  destruct (later_total x x') as [->|[B|B]].
  - split; [reflexivity|eapply stands_fun; eauto].
  - pose proof (H' _ _ _ NE SA B BA). lia.
  - pose proof (H _ _ _ NE' SA' B BA'). lia.
Qed.

(** ** The nodes of the range *)

Lemma shape_tid : forall t, tid (shape t) = pid t.
Proof. intros [i h tl k]. reflexivity. Qed.
Lemma shape_reach : forall x t n, stands t x n -> reach (shape t) x (shape n).
Proof.
  induction x as [|k x IH]; intros t n A.
  - apply stands_nil in A. subst. constructor.
  - apply stands_cons in A as (c & E & A). destruct t as [i h tl kids]. cbn [shape pkids] in *. econstructor; [|apply IH; exact A]. now rewrite nth_error_map, E.
Qed.
Lemma reach_shape : forall x t m, reach (shape t) x m -> exists n, stands t x n /\ m = shape n.
Proof.
  induction x as [|k x IH]; intros t m A.
  - inversion A; subst. exists t. split; [constructor|reflexivity].
  - destruct t as [i h tl kids]. cbn [shape] in A. apply reach_cons in A as (c & E & A). rewrite nth_error_map in E. destruct (nth_error kids k) as [c'|] eqn:E'; [|discriminate]. injection E as <-.
    destruct (IH _ _ A) as (n & SN & ->). exists n. split; [econstructor; eauto|reflexivity].
Qed.

Section Doc.
Context {B : Type}.
Variable h : heap B.
Variable d : pn.
Hypothesis INT : integrity h.
Hypothesis ROOT : par h (pid d) = None.
Hypothesis REP : rep h (shape d).

Lemma stands_at : forall x n, stands d x n -> at_path h (pid d) x (pid n).
Proof. intros x n A. apply shape_reach in A. destruct (rep_reach h _ _ _ REP A) as [X _]. now rewrite !shape_tid in X. Qed.
Lemma at_stands : forall x i, at_path h (pid d) x i -> exists n, stands d x n /\ pid n = i.
Proof.
  intros x i A. rewrite <- shape_tid in A. destruct (rep_at_path h x (shape d) i REP A) as (m & R & T). apply reach_shape in R as (n & SN & ->). exists n. split; [exact SN|]. now rewrite <- shape_tid.
Qed.
Lemma pid_path : forall x y m n, stands d x m -> stands d y n -> pid m = pid n -> x = y.
Proof. intros x y m n A C E. apply stands_at in A, C. rewrite E in A. eapply path_unique; eauto. Qed.

Lemma between_prefix : forall z s e w, upto (z ++ s) w -> upto w (z ++ e) -> exists w', w = z ++ w' /\ upto s w' /\ upto w' e.
Proof.
  induction z as [|k z IH]; intros s e w A C; cbn [app] in *; [eauto|]. destruct w as [|j w]; [apply upto_nil_r in A; discriminate|].
  apply Range_Proofs.upto_cons in A, C. destruct A as [A|[<- A]]; destruct C as [C|[E C]]; try lia.
  destruct (IH s e w A C) as (w' & -> & D). exists w'. split; [reflexivity|exact D].
Qed.
Lemma upto_prefix : forall z a b, upto (z ++ a) (z ++ b) <-> upto a b.
Proof. induction z as [|k z IH]; intros a b; cbn [app]; [reflexivity|]. rewrite Range_Proofs.upto_cons, IH. split; [intros [|[_ H]]; [lia|exact H]|auto]. Qed.

Lemma no_skip : forall t Q p, ~ skipped t Q (fun _ => false) p.
Proof. intros t Q p (q & m & _ & _ & _ & F). discriminate. Qed.

(** The nodes that a range lists, by their paths in the document. *)
Lemma lists_paths : forall z tz s e (Q : list nat -> Prop) ys, rep h tz -> at_path h (pid d) z (tid tz) ->
  lists tz before (fun p => (Q p /\ between s e p) /\ ~ skipped tz (fun q => Q q /\ between s e q) (fun _ => false) p) ys ->
  forall w n, stands d w n -> (In (pid n) ys <-> exists w', w = z ++ w' /\ Q w' /\ between s e w').
Proof.
  intros z tz s e Q ys RZ AZ (ps & F & _ & HP) w n SN. split.
  - intros M. assert (X : exists p, In p ps /\ exists m, reach tz p m /\ tid m = pid n).
    { clear HP. induction F as [|p y ps ys H F IH]; [destruct M|]. destruct M as [<-|M]; [exists p; split; [now left|exact H]|]. destruct (IH M) as (p' & I' & H'). exists p'. split; [now right|exact H']. }
    destruct X as (p & IP & m & R & T). apply HP in IP as [[HQ _] _]. exists p. split; [|exact HQ].
    destruct (rep_reach h _ _ _ RZ R) as [A _]. rewrite T in A. pose proof (at_path_app h _ _ _ _ _ AZ A) as A2. eapply path_unique; [exact INT|exact ROOT| |exact A2]. now apply stands_at.
  - intros (p & -> & HQ). pose proof (stands_at _ _ SN) as A. apply at_path_split in A as (zi & A1 & A2). rewrite (at_path_det h _ _ _ _ A1 AZ) in A2. destruct (rep_at_path h p tz (pid n) RZ A2) as (m & R & T).
    assert (IP : In p ps). { apply HP. split; [split; [exact HQ|apply no_skip]|]. now exists m. }
    clear HP. induction F as [|p' y ps ys H F IH]; [destruct IP|]. destruct IP as [->|IP]; [|right; auto]. left. destruct H as (m' & R' & <-). now rewrite (reach_fun _ _ _ _ R' R).
Qed.

Lemma lists_ext : forall t ord (Q Q' : list nat -> Prop) ys, (forall p, Q p <-> Q' p) -> lists t ord Q ys -> lists t ord Q' ys.
Proof. intros t ord Q Q' ys E (ps & F & G & H). exists ps. split; [exact F|]. split; [exact G|]. intros p. rewrite (H p), E. reflexivity. Qed.

(** From start to end node, below the ancestor. *)
Lemma range_lists : forall z tz s e, rep h tz -> at_path h (pid d) z (tid tz) -> valid tz (Some s) -> valid tz (Some e) -> upto s e ->
  exists f0 r ys, new_range tz (Some s) (Some e) = Ok r /\ (forall fuel, f0 <= fuel -> exists r', range_nodes fuel (fun _ => false) r = Ok (ys, r')) /\
    forall w n, stands d w n -> (In (pid n) ys <-> upto (z ++ s) w /\ upto w (z ++ e) /\ w <> z).
Proof.
  intros z tz s e RZ AZ VS VE U. destruct s as [|k s].
  - destruct (C43_nodes_from_start (fun _ => false) tz (Some []) (Some e) (or_intror eq_refl) VE) as (f0 & r & ys & E & F & L). exists f0, r, ys. split; [exact E|]. split; [exact F|]. intros w n SN.
    rewrite (lists_paths z tz None (Some e) (fun p => p <> []) ys RZ AZ) with (w := w) (n := n); [|eapply lists_ext; [|exact L]; intros p; tauto|exact SN]. split.
    + intros (w' & -> & NE & _ & UE). cbn [between] in *. split; [rewrite upto_prefix; apply upto_nil|]. split; [now rewrite upto_prefix|]. intros X. apply NE. rewrite <- (app_nil_r z) in X at 2. now apply app_inv_head in X.
    + intros (A & C & NE). destruct (between_prefix z [] e w A C) as (w' & -> & _ & UE). exists w'. split; [reflexivity|]. split; [intros ->; apply NE; apply app_nil_r|]. split; [exact Logic.I|exact UE].
  - destruct (C43_nodes_partial (fun _ => false) tz (k :: s) (Some e) ltac:(discriminate) VS VE U) as (f0 & r & ys & E & F & L). exists f0, r, ys. split; [exact E|]. split; [exact F|]. intros w n SN.
    rewrite (lists_paths z tz (Some (k :: s)) (Some e) (fun p => True) ys RZ AZ) with (w := w) (n := n); [| |exact SN].
    2:{ eapply lists_ext; [|exact L]. intros p. cbv beta. split; [intros [A C]; split; [auto|apply no_skip]|intros [[_ A] _]; split; [exact A|apply no_skip]]. }
    split.
    + intros (w' & -> & _ & US & UE). rewrite !upto_prefix. split; [exact US|]. split; [exact UE|]. intros X. rewrite <- (app_nil_r z) in X at 2. apply app_inv_head in X. subst w'. apply upto_nil_r in US. discriminate.
    + intros (A & C & NE). destruct (between_prefix z (k :: s) e w A C) as (w' & -> & US & UE). exists w'. repeat split; auto.
Qed.

Variables range_from_root range_from_cursor : bool.
Hypothesis LAID : laid_out d.
Notation edit_cursor := (edit_cursor h range_from_root range_from_cursor).

(** *** With a selection *)
Section Selection.
Variables (p q : nat) (x y : list nat) (a b : pn).
Hypothesis SEL : p < q.
Hypothesis FIRST : first_from d p x a.
Hypothesis LAST : last_to d q y b.

Lemma found_right : find_descendant_right p d = Ok (Some a).
Proof.
  destruct (right_first p d LAID) as ([a'|] & E & H).
  - destruct H as (x' & H). destruct (first_unique _ _ _ _ _ _ FIRST H) as [_ <-]. exact E.
  - destruct FIRST as (NE & SA & (i & BA & PI) & _). exfalso. apply (Nat.lt_irrefl i). exact (Nat.lt_le_trans _ _ _ (H _ _ _ NE SA BA) PI).
Qed.
Lemma found_left : find_descendant_left q d = Ok (Some b).
Proof.
  destruct (left_last q d LAID) as ([a'|] & E & H).
  - destruct H as (x' & H). destruct (last_unique _ _ _ _ _ _ LAST H) as [_ <-]. exact E.
  - destruct LAST as (NE & SA & (i & BA & PI) & _). exfalso. apply (Nat.lt_irrefl i). exact (Nat.le_lt_trans _ _ _ PI (H _ _ _ NE SA BA)).
Qed.

Lemma ranged : exists f0 z anc s e, (forall fuel, f0 <= fuel -> from_nodes fuel h (Some (pid a)) (Some (pid b)) range_from_root = Ok (anc, Some s, Some e)) /\
  at_path h (pid d) z anc /\ x = z ++ s /\ y = z ++ e /\ at_path h anc s (pid a) /\ at_path h anc e (pid b) /\ (if range_from_root then z = [] else diverge s e).
Proof.
  destruct FIRST as (_ & SA & _). destruct LAST as (_ & SB & _). apply stands_at in SA, SB. destruct range_from_root.
  - exists (S (List.length x + List.length y)), [], (pid d), x, y. split; [|repeat split; auto; constructor]. intros fuel L. unfold from_nodes. cbn [negb].
    rewrite (root_spec h (pid d) x (pid a) fuel INT ROOT SA), (trail_spec h (pid d) x (pid a) fuel INT ROOT SA), (trail_spec h (pid d) y (pid b) fuel INT ROOT SB), (root_spec h (pid d) y (pid b) fuel INT ROOT SB) by lia. cbn [bindr]. now rewrite Nat.eqb_refl.
  - destruct (C40_common h (pid d) (pid a) (pid b) INT ROOT (ex_intro _ x SA) (ex_intro _ y SB)) as (f0 & m & s & e & F & A1 & A2 & D & Y).
    destruct (split_paths x y) as (c & s' & e' & -> & -> & D'). apply at_path_split in SA as (m' & M & SA). apply at_path_split in SB as (m2 & M2 & SB). rewrite (at_path_det h _ _ _ _ M2 M) in SB.
    assert (IM : inside h m' m) by (apply Y; [now exists s'|now exists e']). destruct IM as [u U].
    assert (ES : s' = u ++ s) by (apply (app_inv_head c); exact (path_unique h (pid d) _ _ _ INT ROOT (at_path_app h _ _ _ _ _ M SA) (at_path_app h _ _ _ _ _ M (at_path_app h _ _ _ _ _ U A1)))) .
    assert (EE : e' = u ++ e) by (apply (app_inv_head c); exact (path_unique h (pid d) _ _ _ INT ROOT (at_path_app h _ _ _ _ _ M SB) (at_path_app h _ _ _ _ _ M (at_path_app h _ _ _ _ _ U A2)))) .
    exists f0, (c ++ u), m, s, e. split.
    { intros fuel L. unfold from_nodes. cbn [negb]. destruct (F fuel L) as (_ & _ & -> & _). reflexivity. }
    split; [exact (at_path_app h _ _ _ _ _ M U)|]. rewrite ES, EE, !app_assoc. repeat split; auto.
Qed.

(** The range, and the nodes that it yields, when the last node that ends in the
    selection also begins in it. *)
(** Missing for the full claim: the nodes below the last node, and a last node that begins before the selection (the findings). *)
Theorem C101_selection_partial : (forall i, begins b i -> p <= i) ->
  exists f0 z anc n_anc s e, 
    (forall fuel, f0 <= fuel -> exists start end_, begins a start /\ ends b end_ /\
       edit_cursor fuel d (Cursor p q) = Ok ((anc, Some s, Some e), (Some start, Some end_))) /\
    (* the ancestor is the document or the youngest node that has both *)
    stands d z n_anc /\ pid n_anc = anc /\ x = z ++ s /\ y = z ++ e /\ (if range_from_root then z = [] else diverge s e) /\
    exists r ys, new_range (shape n_anc) (Some s) (Some e) = Ok r /\
      (forall fuel, f0 <= fuel -> exists r', range_nodes fuel (fun _ => false) r = Ok (ys, r')) /\
      (* only nodes that begin in the selection *)
      (forall w n i, stands d w n -> begins n i -> In (pid n) ys -> p <= i /\ i < q) /\
      (* all nodes in the selection, except the ancestor itself and those below the last *)
      (forall w n i j, stands d w n -> begins n i -> ends n j -> p <= i -> j <= q -> w <> [] -> In (pid n) ys \/ w = z \/ above y w).
Proof.
  intros BEG. destruct ranged as (f0 & z & anc & s & e & F & AZ & EX & EY & AS & AE & FR).
  destruct (at_stands _ _ AZ) as (na & SZ & EZ). pose proof FIRST as FI. pose proof LAST as LA.
  destruct FI as (NX & SA & (i & BA & PI) & HF). destruct LA as (NY & SB & (j & EB & QJ) & HL).
  assert (RZ : rep h (shape na)) by (destruct (rep_reach h _ _ _ REP (shape_reach _ _ _ SZ)); assumption).
  assert (TZ : tid (shape na) = anc) by (now rewrite shape_tid).
  assert (AZ' : at_path h (pid d) z (tid (shape na))) by (rewrite TZ; exact AZ).
  assert (VS : valid (shape na) (Some s)). { subst x. apply stands_app in SA as (m & M & SA). rewrite (stands_fun _ _ _ _ M SZ) in SA. exists (shape a). now apply shape_reach. }
  assert (VE : valid (shape na) (Some e)). { subst y. apply stands_app in SB as (m & M & SB). rewrite (stands_fun _ _ _ _ M SZ) in SB. exists (shape b). now apply shape_reach. }
  assert (U : upto x y).
  { destruct (upto_total x y) as [|[->|V]]; [assumption|now left|]. destruct (spans b) as [|[k l] t] eqn:ES.
    - destruct EB as (u & v & EB). rewrite ES in EB. destruct v; discriminate.
    - assert (BB : begins b k) by (exists l, t; exact ES). pose proof (HF _ _ _ NY SB V BB). pose proof (BEG _ BB). lia. }
  rewrite EX, EY in U. apply upto_prefix in U.
  destruct (range_lists z (shape na) s e RZ AZ' VS VE U) as (f1 & r & ys & ER & RN & LS).
  exists (f0 + f1), z, anc, na, s, e. split.
  { intros fuel L. exists i, j. split; [exact BA|]. split; [exact EB|]. unfold Cursor_Model.edit_cursor, has_selection. cbn [c_pos c_end]. replace (negb (p =? q)) with true by lia.
    rewrite found_right, found_left. cbn [bindr option_map]. rewrite (F fuel) by lia. cbn [bindr]. 
    apply (pos_begins a i) in BA; [|apply (pre_headed d); [apply LAID|eapply stands_pre; exact SA]]. apply pend_ends in EB. now rewrite BA, EB. }
  split; [exact SZ|]. split; [exact EZ|]. split; [exact EX|]. split; [exact EY|]. split; [exact FR|]. exists r, ys. split; [exact ER|]. split; [intros fuel L; apply RN; lia|]. split.
  - intros w n k SN BN M. apply (LS w n SN) in M. rewrite <- EX, <- EY in M. destruct M as (U1 & U2 & _). split.
    + destruct U1 as [<-|U1]; [rewrite (stands_fun _ _ _ _ SN SA) in BN; rewrite (begins_fun _ _ _ BN BA); exact PI|]. pose proof (before_begins _ _ _ _ _ _ _ LAID U1 SA SN BA BN). lia.
    + destruct (spans b) as [|[u l] t] eqn:ES.
      { destruct EB as (u & v & EB). rewrite ES in EB. destruct v; discriminate. }
      assert (BB : begins b u) by (exists l, t; exact ES). pose proof (begins_before_ends _ _ _ _ _ LAID SB BB EB).
      destruct U2 as [->|U2]; [rewrite (stands_fun _ _ _ _ SN SB) in BN; rewrite (begins_fun _ _ _ BN BB); lia|]. pose proof (before_begins _ _ _ _ _ _ _ LAID U2 SN SB BN BB). lia.
  - intros w n k l SN BN EN PK LQ NW. destruct (list_eq_dec Nat.eq_dec w z) as [->|NZ]; [auto|].
    assert (U1 : upto x w). { destruct (upto_total x w) as [|[->|V]]; [assumption|now left|]. pose proof (HF _ _ _ NW SN V BN). lia. }
    destruct (path_cases w y) as [->|[V|[V|[V|V]]]]; auto.
    + left. apply (LS y n SN). rewrite <- EX, <- EY. split; [exact U1|]. split; [now left|exact NZ].
    + pose proof (HL _ _ _ NW SN (or_introl V) EN). lia.
    + left. apply (LS w n SN). rewrite <- EX, <- EY. split; [exact U1|]. split; [right; now right|exact NZ].
    + pose proof (HL _ _ _ NW SN (or_intror V) EN). lia.
Qed.
End Selection.

(** Exactly one node is selected: it is the ancestor of the range, so that neither
    that node nor the nodes below it are edited. *)
Theorem C101_single_finding : forall p q x a, p < q -> first_from d p x a -> last_to d q x a -> range_from_root = false ->
  exists f0 r, (forall fuel, f0 <= fuel -> exists start end_, edit_cursor fuel d (Cursor p q) = Ok ((pid a, Some [], Some []), (Some start, Some end_))) /\
    new_range (shape a) (Some []) (Some []) = Ok r /\ range_bool r = false /\
    forall fuel, f0 <= fuel -> exists r', range_nodes fuel (fun _ => false) r = Ok ([], r').
Proof.
  intros p q x a SEL FI LA RF.
  assert (BEG : forall i, begins a i -> p <= i). { intros i BI. destruct FI as (_ & _ & (k & BK & PK) & _). now rewrite (begins_fun _ _ _ BI BK). }
  destruct (C101_selection_partial p q x x a a SEL FI LA BEG) as (f0 & z & anc & na & s & e & E & SZ & <- & EX & EY & DV & r & ys & ER & RN & _).
  assert (e = s) by (apply (app_inv_head z); congruence). subst e. rewrite RF in DV. assert (s = []) by (destruct s; [reflexivity|cbn in DV; congruence]). subst s.
  rewrite app_nil_r in EX. subst z. destruct FI as (_ & SA & _). assert (na = a) by (eapply stands_fun; eauto). subst na.
  destruct (C43_nodes_from_start (fun _ => false) (shape a) (Some []) (Some []) (or_intror eq_refl) (ex_intro _ _ (reach_here _))) as (f1 & r1 & ys1 & ER1 & RN1 & (ps & F & _ & HP)).
  rewrite ER in ER1. injection ER1 as <-. assert (ps = []).
  { destruct ps as [|u ps]; [reflexivity|]. destruct (proj1 (HP u) (or_introl eq_refl)) as [(NE & (_ & U) & _) _]. apply upto_nil_r in U. congruence. }
  subst ps. inversion F; subst ys1. exists (f0 + f1), r. split; [intros fuel L; destruct (E fuel ltac:(lia)) as (i & j & _ & _ & X); eauto|]. split; [exact ER|]. split; [|intros fuel L; apply RN1; lia].
  destruct (C43_bool (shape a) (Some []) (Some []) (ex_intro _ _ (reach_here _)) (ex_intro _ _ (reach_here _))) as (r2 & E2 & BB). rewrite ER in E2. injection E2 as <-.
  destruct (range_bool r); [|reflexivity]. destruct (proj1 BB eq_refl) as (u & NE & _ & _ & U). apply upto_nil_r in U. congruence.
Qed.

(** *** With one end only *)

Lemma shape_at : at_path h (pid d) [] (tid (shape d)).
Proof. rewrite shape_tid. constructor. Qed.

(** The nodes from one on to the end, up to one from the start, or all. *)
Lemma tail_lists : forall x a, x <> [] -> stands d x a ->
  exists f0 r ys, new_range (shape d) (Some x) None = Ok r /\ (forall fuel, f0 <= fuel -> exists r', range_nodes fuel (fun _ => false) r = Ok (ys, r')) /\
    forall w n, stands d w n -> (In (pid n) ys <-> upto x w).
Proof.
  intros x a NX SA. destruct (C43_nodes_partial (fun _ => false) (shape d) x None NX (ex_intro _ _ (shape_reach _ _ _ SA)) Logic.I Logic.I) as (f0 & r & ys & E & F & L). exists f0, r, ys. split; [exact E|]. split; [exact F|]. intros w n SN.
  rewrite (lists_paths [] (shape d) (Some x) None (fun p => True) ys REP shape_at) with (w := w) (n := n); [| |exact SN].
  2:{ eapply lists_ext; [|exact L]. intros u. cbv beta. split; [intros [A C]; split; [auto|apply no_skip]|intros [[_ A] _]; split; [exact A|apply no_skip]]. }
  split; [intros (w' & -> & _ & U & _); exact U|intros U; exists w; repeat split; auto].
Qed.
Lemma head_lists : forall (e : option (list nat)), valid (shape d) e ->
  exists f0 r ys, new_range (shape d) None e = Ok r /\ (forall fuel, f0 <= fuel -> exists r', range_nodes fuel (fun _ => false) r = Ok (ys, r')) /\
    forall w n, stands d w n -> (In (pid n) ys <-> w <> [] /\ match e with Some y => upto w y | None => True end).
Proof.
  intros e V. destruct (C43_nodes_from_start (fun _ => false) (shape d) None e (or_introl eq_refl) V) as (f0 & r & ys & E & F & L). exists f0, r, ys. split; [exact E|]. split; [exact F|]. intros w n SN.
  rewrite (lists_paths [] (shape d) None e (fun p => p <> []) ys REP shape_at) with (w := w) (n := n); [|eapply lists_ext; [|exact L]; intros u; tauto|exact SN].
  split; [intros (w' & -> & N & _ & U); auto|intros [N U]; exists w; split; [reflexivity|]; split; [exact N|]; split; [exact Logic.I|exact U]].
Qed.

(** No selection: the nodes that begin at or after the cursor. *)
Theorem C101_from_cursor : forall p x a, range_from_cursor = true -> first_from d p x a ->
  exists f0 r ys, (forall fuel, f0 <= fuel -> edit_cursor fuel d (Cursor p p) = Ok ((pid d, Some x, None), (None, None))) /\
    new_range (shape d) (Some x) None = Ok r /\ (forall fuel, f0 <= fuel -> exists r', range_nodes fuel (fun _ => false) r = Ok (ys, r')) /\
    forall w n i, w <> [] -> stands d w n -> begins n i -> (In (pid n) ys <-> p <= i).
Proof.
  intros p x a RC FI. pose proof FI as (NX & SA & (i & BA & PI) & HF). destruct (tail_lists x a NX SA) as (f0 & r & ys & ER & RN & LS).
  exists (f0 + S (List.length x)), r, ys. split.
  { intros fuel L. unfold Cursor_Model.edit_cursor, has_selection. cbn [c_pos c_end]. rewrite Nat.eqb_refl. cbn [negb]. rewrite RC, (found_right p x a FI). cbn [bindr]. unfold from_nodes. pose proof (stands_at _ _ SA) as A.
    rewrite (root_spec h (pid d) x (pid a) fuel INT ROOT A), (trail_spec h (pid d) x (pid a) fuel INT ROOT A) by lia. reflexivity. }
  split; [exact ER|]. split; [intros fuel L; apply RN; lia|]. intros w n k NW SN BN. rewrite (LS w n SN). split.
  - intros [<-|U]; [rewrite (stands_fun _ _ _ _ SN SA) in BN; rewrite (begins_fun _ _ _ BN BA); exact PI|]. pose proof (before_begins _ _ _ _ _ _ _ LAID U SA SN BA BN). lia.
  - intros PK. destruct (upto_total x w) as [|[->|V]]; [assumption|now left|]. pose proof (HF _ _ _ NW SN V BN). lia.
Qed.

(** The whole document otherwise; also with a selection without any nodes, if there are no
    nodes beside it. *)
Theorem C101_whole : forall c, 
  (c_end c = c_pos c /\ (range_from_cursor = false \/ forall w n i, w <> [] -> stands d w n -> begins n i -> i < c_pos c)) \/
  (c_pos c < c_end c /\ (forall w n i, w <> [] -> stands d w n -> begins n i -> i < c_pos c) /\ (forall w n j, w <> [] -> stands d w n -> ends n j -> c_end c < j)) ->
  exists f0 r ys, (forall fuel, edit_cursor fuel d c = Ok ((pid d, None, None), (None, None))) /\
    new_range (shape d) None None = Ok r /\ (forall fuel, f0 <= fuel -> exists r', range_nodes fuel (fun _ => false) r = Ok (ys, r')) /\
    forall w n, stands d w n -> (In (pid n) ys <-> w <> []).
Proof.
  intros [p q] H. cbn [c_pos c_end] in H. destruct (head_lists None Logic.I) as (f0 & r & ys & ER & RN & LS). exists f0, r, ys.
  split; [|split; [exact ER|split; [exact RN|intros w n SN; rewrite (LS w n SN); tauto]]]. intros fuel. unfold Cursor_Model.edit_cursor, has_selection. cbn [c_pos c_end].
  assert (NR : (forall w n i, w <> [] -> stands d w n -> begins n i -> i < p) -> find_descendant_right p d = Ok None).
  { intros X. destruct (right_first p d LAID) as ([a|] & E & Y); [|exact E]. destruct Y as (x & NE & SA & (i & BA & PI) & _). pose proof (X _ _ _ NE SA BA). lia. }
  destruct H as [[-> [RC|X]]|(L & X & Y)].
  - rewrite Nat.eqb_refl, RC. reflexivity.
  - rewrite Nat.eqb_refl. cbn [negb]. rewrite (NR X). destruct range_from_cursor; reflexivity.
  - replace (negb (p =? q)) with true by lia. rewrite (NR X). cbn [bindr].
    destruct (left_last q d LAID) as ([b|] & E & Z); rewrite E; [|reflexivity]. destruct Z as (y & NE & SB & (j & EB & QJ) & _). pose proof (Y _ _ _ NE SB EB). lia.
Qed.

(** A selection after the begin of all nodes: everything from the start of the document is
    edited, though no edited node begins in the selection. *)
Theorem C101_after_finding : forall p q y b, p < q -> (forall w n i, w <> [] -> stands d w n -> begins n i -> i < p) -> last_to d q y b ->
  exists f0 r ys, (forall fuel, f0 <= fuel -> exists end_, edit_cursor fuel d (Cursor p q) = Ok ((pid d, None, Some y), (None, Some end_))) /\
    new_range (shape d) None (Some y) = Ok r /\ (forall fuel, f0 <= fuel -> exists r', range_nodes fuel (fun _ => false) r = Ok (ys, r')) /\
    (forall w n, stands d w n -> (In (pid n) ys <-> w <> [] /\ upto w y)) /\
    forall w n i, stands d w n -> In (pid n) ys -> begins n i -> i < p.
Proof.
  intros p q y b SEL X LA. pose proof LA as (NY & SB & (j & EB & QJ) & _). destruct (head_lists (Some y) (ex_intro _ _ (shape_reach _ _ _ SB))) as (f0 & r & ys & ER & RN & LS).
  exists (f0 + S (List.length y)), r, ys. split.
  { intros fuel L. exists j. unfold Cursor_Model.edit_cursor, has_selection. cbn [c_pos c_end]. replace (negb (p =? q)) with true by lia. pose proof (stands_at _ _ SB) as A.
    destruct (right_first p d LAID) as ([a|] & E & Y). { destruct Y as (x & NE & SA & (i & BA & PI) & _). pose proof (X _ _ _ NE SA BA). lia. }
    rewrite E, (found_left q y b LA). cbn [bindr option_map]. unfold from_nodes. rewrite (root_spec h (pid d) y (pid b) fuel INT ROOT A), (trail_spec h (pid d) y (pid b) fuel INT ROOT A) by lia. cbn [bindr]. apply pend_ends in EB. now rewrite EB. }
  split; [exact ER|]. split; [intros fuel L; apply RN; lia|]. split; [exact LS|]. intros w n i SN M BN. apply (LS w n SN) in M. eapply X; [apply M|exact SN|exact BN].
Qed.

(** A selection before the end of all nodes: everything up to the end of the document is
    edited, though no edited node ends in the selection. *)
Theorem C101_ahead_finding : forall p q x a, p < q -> first_from d p x a -> (forall w n j, w <> [] -> stands d w n -> ends n j -> q < j) ->
  exists f0 r ys, (forall fuel, f0 <= fuel -> exists start, edit_cursor fuel d (Cursor p q) = Ok ((pid d, Some x, None), (Some start, None))) /\
    new_range (shape d) (Some x) None = Ok r /\ (forall fuel, f0 <= fuel -> exists r', range_nodes fuel (fun _ => false) r = Ok (ys, r')) /\
    (forall w n, stands d w n -> (In (pid n) ys <-> upto x w)) /\
    forall w n j, stands d w n -> In (pid n) ys -> ends n j -> q < j.
Proof.
  intros p q x a SEL FI Y. pose proof FI as (NX & SA & (i & BA & PI) & _). destruct (tail_lists x a NX SA) as (f0 & r & ys & ER & RN & LS).
  exists (f0 + S (List.length x)), r, ys. split.
  { intros fuel L. exists i. unfold Cursor_Model.edit_cursor, has_selection. cbn [c_pos c_end]. replace (negb (p =? q)) with true by lia. pose proof (stands_at _ _ SA) as A.
    destruct (left_last q d LAID) as ([b|] & E & Z). { destruct Z as (y & NE & SB & (j & EB & QJ) & _). pose proof (Y _ _ _ NE SB EB). lia. }
    rewrite (found_right p x a FI), E. cbn [bindr option_map]. unfold from_nodes. rewrite (root_spec h (pid d) x (pid a) fuel INT ROOT A), (trail_spec h (pid d) x (pid a) fuel INT ROOT A) by lia. cbn [bindr].
    apply (pos_begins a i) in BA; [|apply (pre_headed d); [apply LAID|eapply stands_pre; exact SA]]. now rewrite BA. }
  split; [exact ER|]. split; [intros fuel L; apply RN; lia|]. split; [exact LS|]. intros w n j SN M EN. apply (LS w n SN) in M. eapply Y; [|exact SN|exact EN]. intros ->. apply upto_nil_r in M. congruence.
Qed.

(** A selection that goes on to the end of the text (an end of None): any edit raises, if there is something in the document. *)
Theorem C101_open_finding : forall p k n i fuel, stands d [k] n -> begins n i -> edit_open_cursor h range_from_root fuel d p = Err TypeError.
Proof.
  intros p k n i fuel SN BN. unfold edit_open_cursor. destruct (right_first p d LAID) as (r & -> & _). cbn [bindr]. unfold left_of_none.
  apply (pos_begins n i) in BN; [|apply (pre_headed d); [apply LAID|eapply stands_pre; exact SN]].
  apply stands_cons in SN as (c & NE & S0). apply stands_nil in S0 as ->.
  replace (existsb _ (pkids d)) with true; [reflexivity|]. symmetry. apply existsb_exists. exists c. split; [eapply nth_error_In; exact NE|]. rewrite BN. reflexivity.
Qed.
End Doc.
Print Assumptions C101_open_finding.
Print Assumptions C101_selection_partial.
Print Assumptions C101_single_finding.
Print Assumptions C101_from_cursor.
Print Assumptions C101_whole.
Print Assumptions C101_after_finding.
Print Assumptions C101_ahead_finding.

(** [{ c d } e] *)
Definition score : pn := P 4 None None [P 3 (Some (0, 1)) (Some (6, 7)) [P 0 (Some (2, 3)) None []; P 1 (Some (4, 5)) None []]; P 2 (Some (8, 9)) None []].

(** Only the space between [}] and [e] is selected: the range is from e to the block, which
    is empty, but nodes() yields e.  In a selection of [d }] the range has no nodes, but
    nodes() yields d. *)
Theorem C101_space_finding : 
  edit_cursor ex false false 20 score (Cursor 7 8) = Ok ((4, Some [1], Some [0]), (Some 8, Some 7)) /\
  (exists r r', new_range (shape score) (Some [1]) (Some [0]) = Ok r /\ range_bool r = false /\ range_nodes 20 (fun _ => false) r = Ok ([2], r')) /\
  edit_cursor ex false false 20 score (Cursor 4 7) = Ok ((3, Some [1], Some []), (Some 4, Some 7)) /\
  (exists r r', new_range (shape (P 3 (Some (0, 1)) (Some (6, 7)) [P 0 (Some (2, 3)) None []; P 1 (Some (4, 5)) None []])) (Some [1]) (Some []) = Ok r /\ range_bool r = false /\ range_nodes 20 (fun _ => false) r = Ok ([1], r')).
Proof.
  split; [reflexivity|]. split; [eexists; eexists; split; [reflexivity|split; vm_compute; reflexivity]|]. split; [reflexivity|].
  eexists; eexists; split; [reflexivity|split; vm_compute; reflexivity].
Qed.
Print Assumptions C101_space_finding.

Ltac stand := repeat (first [apply stands_here | eapply stands_below; [reflexivity|]]).
Ltac cases_path := repeat match goal with
  | H : None = Some _ |- _ => discriminate H
  | H : Some _ = Some _ |- _ => injection H as <-
  | H : nth_error _ ?k = Some _ |- _ => is_var k; destruct k as [|]; cbn in H
  | H : stands (P _ _ _ _) ?y _ |- _ => is_var y; destruct y as [|]; [apply stands_nil in H; subst|apply stands_cons in H as (? & ? & H)]
  end.

(** [c d] is selected in it. *)
Lemma first_2 : first_from score 2 [0; 0] (P 0 (Some (2, 3)) None []).
Proof.
  split; [discriminate|]. split; [stand|]. split; [exists 2; split; [exists 3, []; reflexivity|lia]|].
  unfold score. intros y m i NY SM BF (j & r & E). cases_path; cbn in *; try congruence; try (injection E; intros; lia);
    exfalso; apply before_cons in BF; destruct BF as [|[? BF]]; try lia; try (apply before_cons in BF; destruct BF as [|[? BF]]; try lia);
    (destruct BF as [BF|BF]; [now apply above_nil_r in BF|now apply left_nil in BF]).
Qed.
Lemma last_5 : last_to score 5 [0; 1] (P 1 (Some (4, 5)) None []).
Proof.
  split; [discriminate|]. split; [stand|]. split; [exists 5; split; [exists 4, []; reflexivity|lia]|].
  unfold score. intros y m i NY SM BF EN. apply pend_ends in EN. cases_path; cbn in EN; try congruence; try (injection EN as <-; try lia);
    exfalso; apply later_cons in BF; destruct BF as [|[? BF]]; try lia; try (apply later_cons in BF; destruct BF as [|[? BF]]; try lia);
    (destruct BF as [BF|BF]; [now apply above_nil_r in BF|now apply left_nil in BF]).
Qed.
Example C101_open_witness : edit_open_cursor ex false 20 score 0 = Err TypeError.
Proof. reflexivity. Qed.
Example C101_witness : integrity ex /\ par ex (pid score) = None /\ rep ex (shape score) /\ laid_out score /\
  first_from score 2 [0; 0] (P 0 (Some (2, 3)) None []) /\ last_to score 5 [0; 1] (P 1 (Some (4, 5)) None []) /\
  edit_cursor ex false false 20 score (Cursor 2 5) = Ok ((3, Some [0], Some [1]), (Some 2, Some 5)) /\
  edit_cursor ex true false 20 score (Cursor 2 5) = Ok ((4, Some [0; 0], Some [0; 1]), (Some 2, Some 5)) /\
  edit_cursor ex false false 20 score (Cursor 0 7) = Ok ((3, Some [], Some []), (Some 0, Some 7)) /\
  edit_cursor ex false true 20 score (Cursor 4 4) = Ok ((4, Some [0; 1], None), (None, None)).
Proof.
  split; [exact ex_integrity|]. split; [reflexivity|]. split; [cbn; repeat split|]. split.
  { split; [cbn; repeat split; intros; congruence|cbn; repeat split; lia]. }
  split; [exact first_2|]. split; [exact last_5|]. repeat split; reflexivity.
Qed.
