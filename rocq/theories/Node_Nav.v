(** Proofs about navigating node trees. *)
From Coq Require Import List ZArith Bool PeanoNat Relations Sorting.Sorted Lia.
From Verif Require Import Base Node_Model Node_Spec Node_Proofs.
Import ListNotations.

(** ** Paths *)

Lemma left_of_app_l a b s : left_of a b -> left_of (a ++ s) b.
Proof. intros (p & i & j & r & t & -> & -> & L). exists p, i, j, (r ++ s), t. rewrite <- app_assoc. auto. Qed.
Lemma left_of_app_r a b s : left_of a b -> left_of a (b ++ s).
Proof. intros (p & i & j & r & t & -> & -> & L). exists p, i, j, r, (t ++ s). rewrite <- app_assoc. auto. Qed.
Lemma left_of_cons i a b : left_of (i :: a) (i :: b) <-> left_of a b.
Proof.
  split.
  - intros (p & x & y & r & t & E1 & E2 & L). destruct p as [|k p]; cbn in *.
    + injection E1 as -> ->. injection E2 as -> ->. lia.
    + injection E1 as -> ->. injection E2 as ->. now exists p, x, y, r, t.
  - intros (p & x & y & r & t & -> & -> & L). now exists (i :: p), x, y, r, t.
Qed.
Lemma left_of_lt i j a b : i < j -> left_of (i :: a) (j :: b).
Proof. intros L. now exists [], i, j, a, b. Qed.
Lemma left_of_prefix p a b : left_of (p ++ a) (p ++ b) <-> left_of a b.
Proof. induction p; cbn; [tauto|]. now rewrite left_of_cons. Qed.
Lemma left_of_nil_l a : ~ left_of [] a.
Proof. intros (p & i & j & r & s & E & _). now destruct p. Qed.
Lemma left_of_nil_r a : ~ left_of a [].
Proof. intros (p & i & j & r & s & _ & E & _). now destruct p. Qed.
Lemma left_of_cases i j a b : left_of (i :: a) (j :: b) <-> i < j \/ i = j /\ left_of a b.
Proof.
  split.
  - intros H. destruct (Nat.eq_dec i j) as [->|N]; [right; split; [reflexivity|]; exact (proj1 (left_of_cons _ _ _) H)|].
    destruct H as (p & x & y & r & t & E1 & E2 & L). destruct p; cbn in *; [injection E1 as -> _; injection E2 as -> _; auto|].
    injection E1 as -> _. injection E2 as ?. congruence.
  - intros [L|[-> L]]; [now apply left_of_lt|now apply left_of_cons].
Qed.
Lemma left_of_irrefl a : ~ left_of a a.
Proof. induction a as [|i a IH]; [apply left_of_nil_l|]. rewrite left_of_cases. intros [L|[_ L]]; [lia|auto]. Qed.
Lemma left_of_trans a b c : left_of a b -> left_of b c -> left_of a c.
Proof.
  revert b c. induction a as [|i a IH]; intros b c H1 H2; [now apply left_of_nil_l in H1|].
  destruct b as [|j b]; [now apply left_of_nil_r in H1|]. destruct c as [|k c]; [now apply left_of_nil_r in H2|].
  rewrite left_of_cases in *. destruct H1 as [H1|[-> H1]], H2 as [H2|[-> H2]]; [left; lia|left; lia|left; lia|right; eauto].
Qed.
Lemma left_of_not_prefix a s : ~ left_of a (a ++ s) /\ ~ left_of (a ++ s) a.
Proof.
  induction a as [|i a [IH1 IH2]]; cbn; [split; [apply left_of_nil_l|apply left_of_nil_r]|].
  rewrite !left_of_cons. auto.
Qed.

(** Any two paths are equal, one above the other, or beside each other. *)
Lemma path_cases a b : a = b \/ above a b \/ above b a \/ left_of a b \/ left_of b a.
Proof.
  revert b. induction a as [|i a IH]; intros [|j b].
  - auto.
  - right; left. now exists j, b.
  - right; right; left. now exists i, a.
  - destruct (Nat.lt_trichotomy i j) as [L|[->|L]].
    + do 3 right. left. now apply left_of_lt.
    + destruct (IH b) as [->|[(x & r & ->)|[(x & r & ->)|[L|L]]]].
      * auto.
      * right; left. now exists x, r.
      * right; right; left. now exists x, r.
      * do 3 right. left. now apply left_of_cons.
      * do 4 right. now apply left_of_cons.
    + do 4 right. now apply left_of_lt.
Qed.
Lemma above_not_left a b : above a b -> ~ left_of a b /\ ~ left_of b a.
Proof. intros (x & r & ->). apply left_of_not_prefix. Qed.
Lemma above_asym a b : above a b -> ~ above b a.
Proof. intros (x & r & ->) (y & s & E). apply (f_equal (@List.length nat)) in E. rewrite !app_length in E. cbn in E. lia. Qed.
Lemma above_neq a b : above a b -> a <> b.
Proof. intros (x & r & ->) E. apply (f_equal (@List.length nat)) in E. rewrite app_length in E. cbn in E. lia. Qed.
Lemma above_cons i a b : above (i :: a) (i :: b) <-> above a b.
Proof. split; intros (x & r & E); exists x, r; cbn in *; congruence. Qed.
Lemma above_prefix p a b : above (p ++ a) (p ++ b) <-> above a b.
Proof. induction p; cbn; [tauto|]. now rewrite above_cons. Qed.
Lemma above_trans a b c : above a b -> above b c -> above a c.
Proof. intros (x & r & ->) (y & s & ->). exists x, (r ++ y :: s). now rewrite <- app_assoc. Qed.
Lemma left_of_above a b c : left_of a b -> above b c -> left_of a c.
Proof. intros L (x & r & ->). now apply left_of_app_r. Qed.
Lemma left_of_above_l a b c : left_of a b -> above a c -> left_of c b.
Proof. intros L (x & r & ->). now apply left_of_app_l. Qed.

(** ** Trees *)

Inductive tree := T (n : nat) (ts : list tree).
Definition tid (t : tree) : nat := match t with T n _ => n end.

Fixpoint tree_ind2 (P : tree -> Prop) (H : forall n ts, Forall P ts -> P (T n ts)) (t : tree) : P t :=
  match t with T n ts => H n ts ((fix go l := match l return Forall P l with [] => Forall_nil P | x :: r => Forall_cons x (tree_ind2 P H x) (go r) end) ts) end.

Section Nav.
Context {B : Type}.
Implicit Types h : heap B.

Fixpoint rep h (t : tree) : Prop :=
  match t with T n ts => kids h n = map tid ts /\ (fix go l := match l with [] => True | x :: r => rep h x /\ go r end) ts end.

Lemma rep_eq h n ts : rep h (T n ts) <-> kids h n = map tid ts /\ Forall (rep h) ts.
Proof.
  cbn [rep]. split; intros [E F]; (split; [exact E|]); clear E.
  - induction ts; [constructor|]. destruct F. constructor; auto.
  - induction F; auto.
Qed.

Lemma rep_exists h n : integrity h -> exists t, tid t = n /\ rep h t.
Proof.
  intros I. induction (i_finite h I n) as [n _ IH].
  assert (L : forall l, (forall c, In c l -> In c (kids h n)) -> exists ts, map tid ts = l /\ Forall (rep h) ts).
  { induction l as [|c l IHl]; intros S; [exists []; split; [reflexivity|constructor]|].
    destruct IHl as (ts & E & F); [intros; apply S; now right|]. destruct (IH c) as (t & E1 & R); [apply S; now left|].
    exists (t :: ts). cbn. split; [congruence|now constructor]. }
  destruct (L (kids h n)) as (ts & E & F); [auto|]. exists (T n ts). split; [reflexivity|]. apply rep_eq. auto.
Qed.

Lemma at_path_det h r p m n : at_path h r p m -> at_path h r p n -> m = n.
Proof. intros A. revert n. induction A; intros m' A'; inversion A'; subst; [reflexivity|]. apply IHA. congruence. Qed.

Lemma at_path_prefix h r p q m : at_path h r p m -> above q p -> exists x, at_path h r q x.
Proof. intros A (x & s & ->). apply at_path_split in A as (y & A & _). now exists y. Qed.

(** The nodes of a tree in order, without those below pruned nodes. *)
Definition joined {A} (rv : bool) (x y : list A) : list A := if rv then y ++ x else x ++ y.

Fixpoint pre (rv : bool) (prune : nat -> bool) (t : tree) : list nat :=
  match t with T n ts => n :: if prune n then [] else
    (fix go l := match l with [] => [] | x :: r => joined rv (pre rv prune x) (go r) end) ts end.
Fixpoint fpre (rv : bool) (prune : nat -> bool) (l : list tree) : list nat :=
  match l with [] => [] | x :: r => joined rv (pre rv prune x) (fpre rv prune r) end.
Lemma pre_eq rv prune n ts : pre rv prune (T n ts) = n :: if prune n then [] else fpre rv prune ts.
Proof. cbn [pre]. f_equal. destruct (prune n); [reflexivity|]. induction ts as [|t ts IH]; [reflexivity|]. cbn [fpre]. now rewrite <- IH. Qed.

(** And their paths. *)
Fixpoint pp (rv : bool) (prune : nat -> bool) (t : tree) : list (list nat) :=
  match t with T n ts => [] :: if prune n then [] else
    (fix go k l := match l with [] => [] | x :: r => joined rv (map (cons k) (pp rv prune x)) (go (S k) r) end) 0 ts end.
Fixpoint fpp (rv : bool) (prune : nat -> bool) (k : nat) (l : list tree) : list (list nat) :=
  match l with [] => [] | x :: r => joined rv (map (cons k) (pp rv prune x)) (fpp rv prune (S k) r) end.
Lemma pp_eq rv prune n ts : pp rv prune (T n ts) = [] :: if prune n then [] else fpp rv prune 0 ts.
Proof. cbn [pp]. f_equal. destruct (prune n); [reflexivity|]. generalize 0. induction ts as [|t ts IH]; intros k; [reflexivity|]. cbn [fpp]. now rewrite <- IH. Qed.

Lemma joined_In {A} rv (x y : list A) a : In a (joined rv x y) <-> In a x \/ In a y.
Proof. destruct rv; cbn; rewrite in_app_iff; tauto. Qed.

Lemma Forall2_joined {A C} (R : A -> C -> Prop) rv a b c d : Forall2 R a c -> Forall2 R b d -> Forall2 R (joined rv a b) (joined rv c d).
Proof. destruct rv; cbn; intros; now apply Forall2_app. Qed.

Lemma fpp_In rv prune k ts p : In p (fpp rv prune k ts) <-> exists j t s, p = (k + j) :: s /\ nth_error ts j = Some t /\ In s (pp rv prune t).
Proof.
  revert k. induction ts as [|t ts IH]; intros k; cbn [fpp].
  - split; [intros []|]. intros (j & t & s & _ & E & _). now destruct j.
  - rewrite joined_In, IH, in_map_iff. split.
    + intros [(s & <- & I)|(j & t' & s & -> & E & I)].
      * exists 0, t, s. rewrite Nat.add_0_r. auto.
      * exists (S j), t', s. rewrite Nat.add_succ_r. auto.
    + intros (j & t' & s & -> & E & I). destruct j as [|j]; cbn in E.
      * left. injection E as ->. exists s. now rewrite Nat.add_0_r.
      * right. exists j, t', s. rewrite Nat.add_succ_r. auto.
Qed.

(** [ordr] is the order for a direction. *)
Definition ordr (rv : bool) : list nat -> list nat -> Prop := if rv then mirror else before.

Lemma SS_app {A} (R : A -> A -> Prop) l m : StronglySorted R l -> StronglySorted R m -> (forall x y, In x l -> In y m -> R x y) -> StronglySorted R (l ++ m).
Proof.
  intros S1 S2 H. induction S1 as [|a l S1 IH F]; [exact S2|]. cbn. constructor.
  - apply IH. intros x y X Y. apply H; [now right|exact Y].
  - rewrite Forall_app. split; [exact F|]. rewrite Forall_forall. intros y Y. apply H; [now left|exact Y].
Qed.
Lemma SS_map {A} (R : A -> A -> Prop) (f : A -> A) l : (forall x y, R x y -> R (f x) (f y)) -> StronglySorted R l -> StronglySorted R (map f l).
Proof.
  intros H S. induction S as [|a l S IH F]; [constructor|]. cbn. constructor; [exact IH|].
  rewrite Forall_forall in *. intros y Y. apply in_map_iff in Y as (x & <- & X). auto.
Qed.

Lemma ordr_cons rv i a b : ordr rv a b -> ordr rv (i :: a) (i :: b).
Proof. destruct rv; cbn; unfold mirror, before; rewrite above_cons, left_of_cons; auto. Qed.
Lemma ordr_prefix rv p a b : ordr rv a b -> ordr rv (p ++ a) (p ++ b).
Proof. induction p; cbn; [auto|]. intros. now apply ordr_cons, IHp. Qed.

Lemma fpp_sorted rv prune ts : Forall (fun t => StronglySorted (ordr rv) (pp rv prune t)) ts -> forall k, StronglySorted (ordr rv) (fpp rv prune k ts).
Proof.
  intros F. induction F as [|t ts SO F IH]; intros k; cbn [fpp]; [constructor|].
  assert (S1 : StronglySorted (ordr rv) (map (cons k) (pp rv prune t))) by (apply SS_map; [apply ordr_cons|exact SO]).
  specialize (IH (S k)).
  assert (C : forall x y, In x (map (cons k) (pp rv prune t)) -> In y (fpp rv prune (S k) ts) -> left_of x y).
  { intros x y X Y. apply in_map_iff in X as (s & <- & _). apply fpp_In in Y as (j & t' & s' & -> & _). apply left_of_lt. lia. }
  destruct rv; cbn [joined]; apply SS_app; auto; intros x y X Y; right; auto.
Qed.

Lemma pp_sorted rv prune t : StronglySorted (ordr rv) (pp rv prune t).
Proof.
  induction t as [n ts IH] using tree_ind2. rewrite pp_eq. constructor.
  - destruct (prune n); [constructor|]. now apply fpp_sorted.
  - destruct (prune n); [constructor|]. rewrite Forall_forall. intros p P. apply fpp_In in P as (j & t & s & -> & _).
    assert (X : above [] ((0 + j) :: s)) by (now exists (0 + j), s). destruct rv; now left.
Qed.

Lemma fpp_at h rv prune n k ts : Forall (fun t => Forall2 (at_path h (tid t)) (pp rv prune t) (pre rv prune t)) ts ->
  (forall j t, nth_error ts j = Some t -> nth_error (kids h n) (k + j) = Some (tid t)) ->
  Forall2 (at_path h n) (fpp rv prune k ts) (fpre rv prune ts).
Proof.
  intros F. revert k. induction F as [|t ts A F IH]; intros k E; cbn [fpp fpre]; [constructor|].
  apply Forall2_joined.
  - assert (X := E 0 t eq_refl). rewrite Nat.add_0_r in X. clear - A X. induction A; cbn; [constructor|]. constructor; [|assumption]. econstructor; eauto.
  - apply IH. intros j t' E'. replace (S k + j) with (k + S j) by lia. now apply E.
Qed.

Lemma rep_kids h n ts j t : rep h (T n ts) -> nth_error ts j = Some t -> nth_error (kids h n) j = Some (tid t).
Proof. rewrite rep_eq. intros [-> _] E. now apply map_nth_error. Qed.
Lemma rep_kids_inv h n ts j c : rep h (T n ts) -> nth_error (kids h n) j = Some c -> exists t, nth_error ts j = Some t /\ tid t = c /\ rep h t.
Proof.
  rewrite rep_eq. intros [-> F] E. rewrite nth_error_map in E. destruct (nth_error ts j) as [t|] eqn:E1; [|discriminate]. injection E as E.
  exists t. rewrite Forall_forall in F. split; [reflexivity|]. split; [exact E|]. apply F. now apply nth_error_In in E1.
Qed.

Lemma pp_at h rv prune t : rep h t -> Forall2 (at_path h (tid t)) (pp rv prune t) (pre rv prune t).
Proof.
  induction t as [n ts IH] using tree_ind2. intros R. rewrite pp_eq, pre_eq. cbn [tid]. constructor; [constructor|].
  destruct (prune n); [constructor|]. apply fpp_at.
  - assert (R' := proj2 (proj1 (rep_eq h n ts) R)). rewrite Forall_forall in *. auto.
  - intros j t E. now apply (rep_kids h n ts).
Qed.

Lemma cut_cons h n i c p prune : nth_error (kids h n) i = Some c ->
  (cut h n (fun q => q <> []) prune (i :: p) <-> cut h c (fun _ => True) prune p).
Proof.
  intros E. split.
  - intros (q & m & AB & NE & A & PR). destruct q as [|j q]; [congruence|]. inversion A as [|? ? c' ? ? E' A']; subst.
    destruct AB as (x & r & EQ). injection EQ as -> ->. exists q, m. split; [now exists x, r|]. split; [exact I|]. split; [congruence|exact PR].
  - intros (q & m & AB & _ & A & PR). exists (i :: q), m. split; [now apply above_cons|]. split; [discriminate|]. split; [econstructor; eauto|exact PR].
Qed.

Lemma pp_In h rv prune t : rep h t -> forall p, In p (pp rv prune t) <-> (exists m, at_path h (tid t) p m) /\ ~ cut h (tid t) (fun _ => True) prune p.
Proof.
  induction t as [n ts IH] using tree_ind2. intros R p. rewrite pp_eq. cbn [tid In]. rewrite Forall_forall in IH.
  assert (R' := proj2 (proj1 (rep_eq h n ts) R)). rewrite Forall_forall in R'.
  split.
  - intros [<-|I].
    + split; [exists n; constructor|]. intros (q & m & (x & r & E) & _). now destruct q.
    + destruct (prune n) eqn:PN; [destruct I|]. apply fpp_In in I as (j & t & s & -> & E & I). cbn [Nat.add] in *.
      assert (J := nth_error_In _ _ E). apply (IH t J (R' t J)) in I as [[m A] NC]. assert (K := rep_kids h n ts j t R E).
      split; [exists m; econstructor; eauto|]. intros (q & m' & AB & _ & A' & PR). destruct q as [|j' q].
      * inversion A'; subst. congruence.
      * apply NC. apply (cut_cons h n j (tid t) s prune K). exists (j' :: q), m'. repeat split; auto. discriminate.
  - intros [[m A] NC]. destruct p as [|j s]; [now left|right]. inversion A as [|? ? c ? ? K A']; subst.
    destruct (prune n) eqn:PN.
    { elim NC. exists [], n. split; [now exists j, s|]. repeat split; auto. constructor. }
    destruct (rep_kids_inv h n ts j c R K) as (t & E & <- & RT). apply fpp_In. exists j, t, s. split; [reflexivity|]. split; [exact E|].
    apply (IH t (nth_error_In _ _ E) RT). split; [now exists m|]. intros C. apply (cut_cons h n j (tid t) s prune K) in C.
    apply NC. destruct C as (q & m' & AB & _ & C). exists q, m'. auto.
Qed.

(** ** The generator *)

Definition out (rv : bool) (prune : nat -> bool) (g : list tree) (s : list (list tree)) : list nat :=
  concat (map (pre rv prune) g) ++ concat (map (fun f => concat (map (pre rv prune) f)) s).

Definition ordt {A} (rv : bool) (l : list A) : list A := if rv then rev l else l.

Lemma fpre_order rv prune ts : concat (map (pre rv prune) (ordt rv ts)) = fpre rv prune ts.
Proof.
  induction ts as [|t ts IH]; [now destruct rv|]. cbn [fpre]. rewrite <- IH. destruct rv; cbn [ordt rev joined]; [|reflexivity].
  rewrite map_app, concat_app. cbn. now rewrite app_nil_r.
Qed.

Lemma order_map rv ts : order rv (map tid ts) = map tid (ordt rv ts).
Proof. destruct rv; cbn; [now rewrite map_rev|reflexivity]. Qed.

Lemma pop_next_spec rv prune g s : match pop_next (map tid g) (map (map tid) s) with
  | None => out rv prune g s = []
  | Some (n, st) => exists ts g' s', st = (map tid g', map (map tid) s', Some n) /\
      out rv prune g s = n :: (if prune n then [] else fpre rv prune ts) ++ out rv prune g' s' /\
      (forall P : tree -> Prop, Forall P g -> Forall (Forall P) s -> P (T n ts) /\ Forall P g' /\ Forall (Forall P) s')
  end.
Proof.
  assert (C : forall n ts g s, exists ts' g' s', (map tid g, map (map tid) s, Some n) = (map tid g', map (map tid) s', Some n) /\
      out rv prune (T n ts :: g) s = n :: (if prune n then [] else fpre rv prune ts') ++ out rv prune g' s' /\
      (forall P : tree -> Prop, Forall P (T n ts :: g) -> Forall (Forall P) s -> P (T n ts') /\ Forall P g' /\ Forall (Forall P) s')).
  { intros n ts g0 s0. exists ts, g0, s0. split; [reflexivity|]. split.
    - unfold out. cbn [map concat]. rewrite pre_eq. cbn [app]. now rewrite <- app_assoc.
    - intros P F1 F2. inversion_clear F1. auto. }
  destruct g as [|[n ts] g].
  - induction s as [|f s IH]; [reflexivity|]. destruct f as [|[n ts] f]; cbn [map pop_next tid].
    + cbn [map pop_next] in IH. destruct (pop_next [] (map (map tid) s)) as [[n st]|]; [|exact IH].
      destruct IH as (ts & g' & s' & E & O & P). exists ts, g', s'. split; [exact E|]. split; [exact O|]. intros Q F1 F2. inversion_clear F2. now apply P.
    + destruct (C n ts f s) as (ts' & g' & s' & E & O & P). exists ts', g', s'. split; [exact E|]. split; [exact O|].
      intros Q F1 F2. inversion_clear F2. now apply P.
  - destruct s as [|f s]; [exact (C n ts g [])|exact (C n ts g (f :: s))].
Qed.

Lemma run_spec h rv prune : forall fuel g s (pend : option tree) (ans : bool),
  Forall (rep h) g -> Forall (Forall (rep h)) s ->
  match pend with Some t => rep h t | None => True end ->
  let o := (match pend with Some (T n ts) => if ans then fpre rv prune ts else [] | None => [] end : list nat) ++ out rv prune g s in
  List.length o < fuel ->
  run fuel h rv prune (map tid g, map (map tid) s, option_map tid pend) ans = Ok o.
Proof.
  induction fuel as [|fuel IH]; intros g s pend ans FG FS RP o L; [lia|].
  (* after dealing with the pending node *)
  assert (X : exists g1 s1, resume h rv (map tid g, map (map tid) s, option_map tid pend) ans = pop_next (map tid g1) (map (map tid) s1) /\
     out rv prune g1 s1 = o /\ Forall (rep h) g1 /\ Forall (Forall (rep h)) s1).
  { unfold resume. destruct pend as [[n ts]|]; cbn [option_map tid]; [|exists g, s; auto].
    assert (K := proj1 (rep_eq h n ts) RP). destruct K as [K F]. rewrite K, map_length.
    destruct ans; cbn [andb]; [|exists g, s; auto]. destruct ts as [|t ts]; cbn [List.length Nat.eqb negb].
    - exists g, s. auto.
    - exists (ordt rv (t :: ts)), (g :: s). rewrite order_map. split; [reflexivity|]. split.
      + unfold o, out. rewrite fpre_order. reflexivity.
      + split; [|now constructor]. destruct rv; cbn [ordt]; [now apply Forall_rev|exact F]. }
  destruct X as (g1 & s1 & E & O & F1 & F2). cbn [run]. rewrite E. pose proof (pop_next_spec rv prune g1 s1) as PN.
  destruct (pop_next (map tid g1) (map (map tid) s1)) as [[n st]|]; [|congruence].
  destruct PN as (ts & g' & s' & -> & O' & P). destruct (P (rep h) F1 F2) as (R & F1' & F2'). rewrite O in O'.
  assert (L' : List.length ((if prune n then [] else fpre rv prune ts) ++ out rv prune g' s') < fuel) by (rewrite O' in L; cbn in L; lia).
  specialize (IH g' s' (Some (T n ts)) (negb (prune n)) F1' F2' R). cbn [option_map tid] in IH.
  replace (if negb (prune n) then fpre rv prune ts else []) with (if prune n then [] else fpre rv prune ts) in IH by now destruct (prune n).
  rewrite (IH L'). cbn [bindr]. now rewrite O'.
Qed.

Lemma descendants_spec h rv prune n ts fuel : rep h (T n ts) -> List.length (fpre rv prune ts) < fuel ->
  descendants fuel h rv prune n = Ok (fpre rv prune ts).
Proof.
  intros R L. destruct (proj1 (rep_eq h n ts) R) as [K F]. unfold descendants, gen_start. rewrite K, order_map.
  pose proof (run_spec h rv prune fuel (ordt rv ts) [] None true) as X. cbn [map option_map app] in X.
  unfold out in X. cbn [map concat] in X. rewrite app_nil_r, fpre_order in X. apply X; auto.
  destruct rv; cbn; [now apply Forall_rev|exact F].
Qed.

Lemma fpp_visits h rv prune n ts : rep h (T n ts) ->
  visits h n (ordr rv) (fun p => p <> [] /\ ~ cut h n (fun q => q <> []) prune p) (fpre rv prune ts).
Proof.
  intros R. assert (R' := proj2 (proj1 (rep_eq h n ts) R)). rewrite Forall_forall in R'. exists (fpp rv prune 0 ts). split; [|split].
  - apply fpp_at; [|intros j t E; now apply (rep_kids h n ts)]. rewrite Forall_forall. intros t J. apply pp_at. auto.
  - apply fpp_sorted. rewrite Forall_forall. intros t _. apply pp_sorted.
  - intros p. rewrite fpp_In. split.
    + intros (j & t & s & -> & E & I). cbn [Nat.add]. assert (J := nth_error_In _ _ E). apply (pp_In h rv prune t (R' t J)) in I as [[m A] NC].
      assert (K := rep_kids h n ts j t R E). split; [split; [discriminate|]|exists m; econstructor; eauto].
      intros C. apply NC. now apply (cut_cons h n j (tid t) s prune K).
    + intros [[NE NC] [m A]]. inversion A as [|? j c s ? K A']; subst; [congruence|].
      destruct (rep_kids_inv h n ts j c R K) as (t & E & <- & RT). exists j, t, s. split; [reflexivity|]. split; [exact E|].
      apply (pp_In h rv prune t RT). split; [now exists m|]. intros C. apply NC. now apply (cut_cons h n j (tid t) s prune K).
Qed.

(** ** filter_descendants *)

Lemma filter_run h (f : nat -> bool) : forall fuel st ans ys,
  run fuel h false f st ans = Ok ys -> filter_loop fuel h f st ans = Ok (filter f ys).
Proof.
  induction fuel as [|fuel IH]; intros st ans ys; cbn [run filter_loop]; [discriminate|].
  destruct (resume h false st ans) as [[n st']|]; [|intros [= <-]; reflexivity].
  destruct (run fuel h false f st' (negb (f n))) as [r|] eqn:E; [|discriminate]. cbn [bindr]. intros [= <-]. apply IH in E.
  cbn [filter]. destruct (f n); cbn [negb] in E; rewrite E; reflexivity.
Qed.

(** ** Ancestors *)

(** The proper prefixes of a path, the longest first. *)
Fixpoint ups_rev (rp : list nat) : list (list nat) := match rp with [] => [] | _ :: r => rev r :: ups_rev r end.
Definition ups (p : list nat) : list (list nat) := ups_rev (rev p).
Lemma ups_snoc p i : ups (p ++ [i]) = p :: ups p.
Proof. unfold ups. rewrite rev_app_distr. cbn. now rewrite rev_involutive. Qed.
Lemma ups_In p q : In q (ups p) <-> above q p.
Proof.
  induction p as [|i p IH] using rev_ind.
  - cbn. split; [tauto|]. intros (x & r & E). now destruct q.
  - rewrite ups_snoc. cbn [In]. rewrite IH. split.
    + intros [<-|(x & r & ->)]; [now exists i, []|]. exists x, (r ++ [i]). now rewrite <- app_assoc.
    + intros (x & r & E). destruct r as [|j r _] using rev_ind.
      * left. apply app_inj_tail in E. apply E.
      * right. change (q ++ x :: r ++ [j]) with (q ++ (x :: r) ++ [j]) in E. rewrite app_assoc in E. apply app_inj_tail in E as [-> _]. now exists x, r.
Qed.

Lemma awi_spec h r p n fuel : integrity h -> par h r = None -> at_path h r p n -> List.length p < fuel ->
  exists l, ancestors fuel h n = Ok (map fst l) /\ with_index h n (map fst l) = Ok l /\ map snd l = rev p /\
    Forall2 (at_path h r) (ups p) (map fst l).
Proof.
  intros I RT. revert n fuel. induction p as [|i p IH] using rev_ind; intros n fuel A L.
  - inversion A; subst. exists []. destruct fuel; [cbn in L; lia|]. cbn. rewrite RT. repeat split; constructor.
  - rewrite app_length in L. cbn in L. destruct fuel as [|fuel]; [lia|].
    apply at_path_split in A as (m & A1 & A2). inversion A2 as [|? ? c ? ? E A3]; subst. inversion A3; subst.
    destruct (IH m fuel A1 ltac:(lia)) as (l & E1 & E2 & E3 & F). exists ((m, i) :: l).
    cbn [ancestors map fst snd]. rewrite (i_parent h I m n) by (now apply nth_error_In in E). rewrite E1. cbn [bindr].
    split; [reflexivity|]. cbn [with_index]. rewrite (find_index_nth n (kids h m) i (i_once h I m) E), E2. cbn [bindr].
    split; [reflexivity|]. rewrite rev_app_distr, E3. split; [reflexivity|]. rewrite ups_snoc. now constructor.
Qed.

Lemma trail_spec h r p n fuel : integrity h -> par h r = None -> at_path h r p n -> List.length p < fuel -> trail fuel h n = Ok p.
Proof.
  intros I RT A L. destruct (awi_spec h r p n fuel I RT A L) as (l & E1 & E2 & E3 & _).
  unfold trail, ancestors_with_index. rewrite E1. cbn [bindr]. rewrite E2. cbn [bindr]. now rewrite E3, rev_involutive.
Qed.

Lemma path_unique h r p q n : integrity h -> par h r = None -> at_path h r p n -> at_path h r q n -> p = q.
Proof.
  intros I RT A1 A2. pose proof (trail_spec h r p n (S (List.length p + List.length q)) I RT A1 ltac:(lia)) as T1.
  pose proof (trail_spec h r q n (S (List.length p + List.length q)) I RT A2 ltac:(lia)) as T2. congruence.
Qed.

Lemma last_default {A} (l : list A) d e : l <> [] -> List.last l d = List.last l e.
Proof. induction l as [|a l IH]; [congruence|]. intros _. destruct l; [reflexivity|]. cbn. apply IH. discriminate. Qed.

Lemma root_spec h r p n fuel : integrity h -> par h r = None -> at_path h r p n -> List.length p < fuel -> root fuel h n = Ok r.
Proof.
  intros I RT. revert n fuel. induction p as [|i p IH] using rev_ind; intros n fuel A L.
  - inversion A; subst. destruct fuel; [cbn in L; lia|]. unfold root. cbn. now rewrite RT.
  - rewrite app_length in L. cbn in L. destruct fuel as [|fuel]; [lia|].
    apply at_path_split in A as (m & A1 & A2). inversion A2 as [|? ? c ? ? E A3]; subst. inversion A3; subst.
    specialize (IH m fuel A1 ltac:(lia)). unfold root in *. cbn [ancestors]. rewrite (i_parent h I m n) by (now apply nth_error_In in E).
    destruct (ancestors fuel h m) as [l|]; [|discriminate]. cbn [bindr] in *. f_equal. injection IH as IH. destruct l as [|x l]; [exact IH|].
    rewrite <- IH. cbn [List.last]. destruct l; [reflexivity|]. apply last_default. discriminate.
Qed.

Lemma depth_spec h r p n fuel : integrity h -> par h r = None -> at_path h r p n -> List.length p < fuel -> depth fuel h n = Ok (List.length p).
Proof.
  intros I RT A L. destruct (awi_spec h r p n fuel I RT A L) as (l & E1 & E2 & E3 & _). unfold depth. rewrite E1. cbn [bindr].
  f_equal. rewrite map_length, <- (map_length snd l), E3. apply rev_length.
Qed.

(** ** Siblings, forward and backward *)

Lemma siblings_spec h p n i : integrity h -> nth_error (kids h p) i = Some n ->
  right_siblings h n = Ok (skipn (S i) (kids h p)) /\ left_siblings h n = Ok (rev (firstn i (kids h p))).
Proof.
  intros I E. unfold right_siblings, left_siblings. rewrite (i_parent h I p n) by (now apply nth_error_In in E).
  now rewrite (find_index_nth n (kids h p) i (i_once h I p) E).
Qed.

(** [with_descendants] on (ordered) trees. *)
Lemma with_descendants_spec h rv prune fuel ts : Forall (rep h) ts -> Forall (fun t => List.length (pre rv prune t) <= fuel) ts ->
  with_descendants fuel h rv prune (map tid ts) = Ok (concat (map (pre rv prune) ts)).
Proof.
  intros F G. induction F as [|[n cs] ts R F IH]; [reflexivity|]. inversion_clear G as [|? ? G1 G2]. cbn [map with_descendants tid].
  rewrite (IH G2). destruct (proj1 (rep_eq h n cs) R) as [K _]. rewrite pre_eq in G1. cbn [List.length] in G1. cbn [concat]. rewrite pre_eq.
  destruct (prune n); cbn [negb andb]; [reflexivity|]. rewrite K, map_length. destruct cs as [|c cs]; cbn [List.length Nat.eqb negb]; [reflexivity|].
  rewrite (descendants_spec h rv prune n (c :: cs) fuel R) by lia. reflexivity.
Qed.

(** What is visited by [walk] from the node at path [p], not outside [pu]. *)
Definition side (rv : bool) (p x : list nat) : Prop := if rv then left_of x p else left_of p x.
Definition prefix (a b : list nat) : Prop := exists r, b = a ++ r.

Lemma prefix_refl a : prefix a a.
Proof. exists []. now rewrite app_nil_r. Qed.
Lemma prefix_nil a : prefix [] a.
Proof. now exists a. Qed.

Lemma side_snoc rv q i x : side rv (q ++ [i]) x <-> side rv q x \/ exists j s, x = q ++ j :: s /\ (if rv then j < i else i < j).
Proof.
  revert x. induction q as [|k q IH]; intros [|y x]; unfold side in *; cbn [app].
  - destruct rv; split; intros H; (try (now apply left_of_nil_r in H)); try (now apply left_of_nil_l in H);
    destruct H as [H|(j & s & E & _)]; try discriminate; (try (now apply left_of_nil_r in H)); now apply left_of_nil_l in H.
  - destruct rv; rewrite left_of_cases; split.
    + intros [L|[_ L]]; [right; now exists y, x|now apply left_of_nil_r in L].
    + intros [L|(j & s & E & L)]; [now apply left_of_nil_r in L|]. injection E as -> ->. auto.
    + intros [L|[_ L]]; [right; now exists y, x|now apply left_of_nil_l in L].
    + intros [L|(j & s & E & L)]; [now apply left_of_nil_l in L|]. injection E as -> ->. auto.
  - destruct rv; split; intros H; (try (now apply left_of_nil_r in H)); try (now apply left_of_nil_l in H);
    destruct H as [H|(j & s & E & _)]; try discriminate; (try (now apply left_of_nil_r in H)); now apply left_of_nil_l in H.
  - specialize (IH x). destruct rv; rewrite !left_of_cases, IH; (split;
    [intros [L|[-> [L|(j & s & -> & L)]]]; [tauto|tauto|right; exists j, s; auto]|
     intros [[L|[-> L]]|(j & s & E & L)]; [tauto|tauto|]; injection E as -> ->; right; split; [reflexivity|right; now exists j, s]]).
Qed.

Lemma side_prefix rv q s : ~ side rv q (q ++ s).
Proof. destruct rv; apply left_of_not_prefix. Qed.

Lemma side_order rv q x j s : side rv q x -> ordr rv (q ++ j :: s) x.
Proof. destruct rv; cbn; intros L; right; [now apply left_of_app_r|now apply left_of_app_l]. Qed.

Lemma side_above rv p q x : side rv p q -> above q x -> side rv p x.
Proof. destruct rv; cbn; intros L A; [eapply left_of_above_l|eapply left_of_above]; eauto. Qed.

Lemma Forall2_map_l {A C D} (R : C -> D -> Prop) (f : A -> C) l m : Forall2 (fun a => R (f a)) l m -> Forall2 R (map f l) m.
Proof. intros F. induction F; cbn; constructor; auto. Qed.
Lemma Forall2_impl2 {A C} (R S : A -> C -> Prop) l m : (forall a c, R a c -> S a c) -> Forall2 R l m -> Forall2 S l m.
Proof. intros H F. induction F; constructor; auto. Qed.

Lemma skipn_map {A C} (f : A -> C) k l : skipn k (map f l) = map f (skipn k l).
Proof. revert l. induction k; intros [|a l]; cbn; auto. Qed.
Lemma nth_error_skipn {A} k (l : list A) j : nth_error (skipn k l) j = nth_error l (k + j).
Proof. revert l. induction k; intros [|a l]; cbn; auto. now destruct j. Qed.
Lemma nth_error_firstn {A} k (l : list A) j : nth_error (firstn k l) j = if j <? k then nth_error l j else None.
Proof.
  revert l j. induction k as [|k IH]; intros l j; [now destruct j|].
  destruct l as [|a l]; [cbn [firstn]; destruct j; cbn [nth_error]; now destruct (_ <? _)|]. destruct j as [|j]; [reflexivity|]. cbn [firstn nth_error]. rewrite IH. reflexivity.
Qed.

Definition beside (rv : bool) (i : nat) (ts : list tree) : list tree := if rv then firstn i ts else skipn (S i) ts.
Definition base (rv : bool) (i : nat) : nat := if rv then 0 else S i.

Lemma beside_nth rv i ts j t : nth_error (beside rv i ts) j = Some t <-> nth_error ts (base rv i + j) = Some t /\ (if rv then j < i else True).
Proof.
  destruct rv; cbn [beside base Nat.add].
  - rewrite nth_error_firstn. destruct (Nat.ltb_spec j i); split; try tauto; [discriminate|]. intros [_ L]. lia.
  - rewrite nth_error_skipn. cbn. tauto.
Qed.

Lemma walk_spec h rv prune r p n : integrity h -> par h r = None -> at_path h r p n ->
  forall upto pu, (upto = None /\ pu = []) \/ (exists u, upto = Some u /\ at_path h r pu u /\ prefix pu p) ->
  exists f0 ys, (forall fuel, f0 <= fuel -> walk fuel h rv prune upto n = Ok ys) /\
    visits h r (ordr rv) (fun x => side rv p x /\ prefix pu x /\ ~ cut h r (side rv p) prune x) ys.
Proof.
  intros I RT. revert n. induction p as [|i q IH] using rev_ind; intros n A upto pu U.
  - inversion A; subst. exists 1, []. split.
    + intros fuel L. destruct fuel; [lia|]. cbn [walk]. now rewrite RT.
    + exists []. split; [constructor|]. split; [constructor|]. intros x. split; [intros []|]. intros [[S _] _].
      destruct rv; [now apply left_of_nil_r in S|now apply left_of_nil_l in S].
  - assert (A0 := A). apply at_path_split in A0 as (m & A1 & A2). inversion A2 as [|? ? c ? ? E A3]; subst. inversion A3; subst. clear A2 A3.
    destruct (list_eq_dec Nat.eq_dec pu (q ++ [i])) as [->|NE].
    { (* the limit is the node itself *)
      destruct U as [[-> U]|(u & -> & AU & _)]; [now destruct q|]. assert (u = n) by (eapply at_path_det; eauto). subst u.
      exists 1, []. split.
      - intros fuel L. destruct fuel; [lia|]. cbn [walk]. rewrite (i_parent h I m n) by (now apply nth_error_In in E). cbn [same]. now rewrite Nat.eqb_refl.
      - exists []. split; [constructor|]. split; [constructor|]. intros x. split; [intros []|]. intros [(S & (s & ->) & _) _]. elim (side_prefix rv (q ++ [i]) s S). }
    assert (U' : (upto = None /\ pu = []) \/ (exists u, upto = Some u /\ at_path h r pu u /\ prefix pu q)).
    { destruct U as [U|(u & -> & AU & (s & S))]; [now left|right]. exists u. split; [reflexivity|]. split; [exact AU|].
      destruct s as [|j s _] using rev_ind; [rewrite app_nil_r in S; congruence|]. rewrite app_assoc in S. apply app_inj_tail in S as [-> _]. now exists s. }
    assert (SM : same upto n = false).
    { destruct U as [[-> _]|(u & -> & AU & _)]; [reflexivity|]. cbn. destruct (Nat.eqb_spec n u) as [->|]; [|reflexivity]. elim NE. eapply path_unique; eauto. }
    assert (PQ : prefix pu q) by (destruct U' as [[_ ->]|(_ & _ & _ & X)]; [apply prefix_nil|exact X]).
    destruct (IH m A1 upto pu U') as (f1 & zs & W & (ps & V1 & V2 & V3)).
    destruct (rep_exists h m I) as ([m' ts] & TM & RM). cbn in TM. subst m'.
    destruct (proj1 (rep_eq h m ts) RM) as [K F].
    set (bs := beside rv i ts). set (xs := fpp rv prune (base rv i) bs).
    assert (FB : Forall (rep h) bs).
    { rewrite Forall_forall in *. intros t J. apply In_nth_error in J as [j J]. apply beside_nth in J as [J _]. apply F. now apply nth_error_In in J. }
    set (f2 := List.fold_right (fun t a => List.length (pre rv prune t) + a) 0 bs).
    assert (LB : Forall (fun t => List.length (pre rv prune t) <= f2) bs).
    { unfold f2. clear. induction bs as [|t bs IH]; [constructor|]. cbn [fold_right]. constructor; [lia|]. rewrite Forall_forall in *. intros x X. specialize (IH x X). lia. }
    exists (S (f1 + f2)), (fpre rv prune bs ++ zs). split.
    { intros fuel L. destruct fuel as [|fuel]; [lia|]. cbn [walk]. rewrite (i_parent h I m n) by (now apply nth_error_In in E). rewrite SM.
      destruct (siblings_spec h m n i I E) as [SR SL].
      assert (SB : (if rv then left_siblings h n else right_siblings h n) = Ok (map tid (ordt rv bs))).
      { destruct rv; cbn [ordt]; unfold bs, beside; [rewrite SL, K|rewrite SR, K, skipn_map; reflexivity].
        now rewrite firstn_map, map_rev. }
      rewrite SB. cbn [bindr]. rewrite with_descendants_spec.
      - cbn [bindr]. rewrite (W fuel ltac:(lia)). cbn [bindr]. now rewrite fpre_order.
      - destruct rv; cbn [ordt]; [now apply Forall_rev|exact FB].
      - assert (LB' : Forall (fun t => List.length (pre rv prune t) <= S fuel) bs). { rewrite Forall_forall in *. intros t J. specialize (LB t J). lia. }
        destruct rv; cbn [ordt]; [now apply Forall_rev|exact LB']. }
    exists (map (app q) xs ++ ps). split; [|split].
    + apply Forall2_app; [|exact V1]. apply Forall2_map_l.
      assert (X : Forall2 (at_path h m) xs (fpre rv prune bs)).
      { apply fpp_at; [rewrite Forall_forall in *; intros t J; apply pp_at; auto|].
        intros j t J. apply beside_nth in J as [J _]. now apply (rep_kids h m ts). }
      revert X. apply Forall2_impl2. intros a c X. now apply at_path_app with m.
    + apply SS_app; [|exact V2|].
      * apply SS_map; [apply ordr_prefix|]. apply fpp_sorted. rewrite Forall_forall. intros t _. apply pp_sorted.
      * intros x y X Y. apply in_map_iff in X as (s & <- & X). apply fpp_In in X as (j & t & s' & -> & _). apply V3 in Y as [(Y & _) _].
        now apply side_order.
    + intros x. rewrite in_app_iff, V3, in_map_iff. split.
      * intros [(s & <- & X)|[(S & P & NC) M]].
        -- apply fpp_In in X as (j & t & s' & -> & J & X). apply beside_nth in J as [J BJ].
           assert (RT' : rep h t) by (rewrite Forall_forall in F; apply F; now apply nth_error_In in J).
           apply (pp_In h rv prune t RT') in X as [[z AZ] NC]. assert (KJ := rep_kids h m ts _ t RM J).
           assert (AX : at_path h r (q ++ base rv i + j :: s') z) by (apply at_path_app with m; [exact A1|]; econstructor; eauto).
           split; [|now exists z]. split; [|split].
           ++ apply side_snoc. right. exists (base rv i + j), s'. split; [reflexivity|]. destruct rv; cbn [base Nat.add]; lia.
           ++ destruct PQ as [u ->]. exists (u ++ base rv i + j :: s'). now rewrite app_assoc.
           ++ intros (c & w & AB & SC & AC & PR). apply side_snoc in SC as [SC|(j' & s2 & -> & _)].
              ** eapply (side_prefix rv q). eapply side_above; [exact SC|exact AB].
              ** apply NC. apply (proj1 (above_prefix _ _ _)) in AB. destruct AB as (x & s3 & EQ). injection EQ as <- ->.
                 apply at_path_split in AC as (m' & AM & AC). assert (m' = m) by (eapply at_path_det; eauto). subst m'.
                 inversion AC as [|? ? c ? ? E' AC']; subst. exists s2, w. split; [now exists x, s3|]. split; [exact Logic.I|]. split; [congruence|exact PR].
        -- split; [|exact M]. split; [apply side_snoc; now left|]. split; [exact P|]. intros (c & w & AB & SC & AC & PR).
           apply side_snoc in SC as [SC|(j' & s2 & -> & _)]; [apply NC; now exists c, w|].
           destruct AB as (y & s3 & ->). rewrite <- app_assoc in S. now apply side_prefix in S.
      * intros [(S & P & NC) [z AZ]]. apply side_snoc in S as [S|(j & s & -> & BJ)].
        -- right. split; [|now exists z]. split; [exact S|]. split; [exact P|]. intros (c & w & AB & SC & C). apply NC. exists c, w. split; [exact AB|]. split; [|exact C].
           apply side_snoc. now left.
        -- left. exists (j :: s). split; [reflexivity|]. apply fpp_In. apply at_path_split in AZ as (m' & AM & AZ). assert (m' = m) by (eapply at_path_det; eauto). subst m'.
           inversion AZ as [|? ? c ? ? KJ AC]; subst. destruct (rep_kids_inv h m ts j c RM KJ) as (t & J & <- & RT').
           exists (j - base rv i), t, s. split; [destruct rv; cbn [base]; f_equal; lia|]. split.
           ++ apply beside_nth. split; [|destruct rv; cbn [base]; [lia|exact Logic.I]]. replace (base rv i + (j - base rv i)) with j; [exact J|]. destruct rv; cbn [base]; lia.
           ++ apply (pp_In h rv prune t RT'). split; [now exists z|]. intros (c & w & AB & _ & AC' & PR). apply NC.
              exists (q ++ j :: c), w. split; [apply (proj2 (above_prefix _ _ _)); now apply (proj2 (above_cons _ _ _))|]. split; [apply side_snoc; right; now exists j, c|]. split; [|exact PR].
              apply at_path_app with m; [exact A1|]. econstructor; eauto.
Qed.
End Nav.
