(** Proofs about finding nodes by position. *)
From Coq Require Import List Arith Bool Lia ZifyBool.
From Verif Require Import Base Find_Model Find_Spec.
Import ListNotations.

Section Ind.
Variable Q : pn -> Prop.
Hypothesis H : forall i h t k, Forall Q k -> Q (P i h t k).
Fixpoint pn_ind2 (t : pn) : Q t :=
  match t with
  | P i h tl k => H i h tl k ((fix all (l : list pn) : Forall Q l :=
      match l with [] => Forall_nil _ | n :: r => Forall_cons _ (pn_ind2 n) (all r) end) k)
  end.
End Ind.

Lemma headed_eq : forall i h t k, headed (P i h t k) <-> ((h = None -> t = None) /\ Forall headed k).
Proof.
  intros i h t k. cbn [headed].
  assert (E : (fix all (l : list pn) : Prop := match l with [] => True | n :: r => headed n /\ all r end) k <-> Forall headed k).
  { induction k as [|n r IH]; [split; constructor|]. rewrite IH. split; [intros [A B]; constructor; assumption|]. intros F. inversion F; subst. auto. }
  rewrite E. reflexivity.
Qed.

Definition lasto {A} (l : list A) : option A := hd_error (rev l).
Lemma lasto_app : forall A (l r : list A), lasto (l ++ r) = match lasto r with Some x => Some x | None => lasto l end.
Proof. intros. unfold lasto. rewrite rev_app_distr. destruct (rev r); reflexivity. Qed.

Lemma pos_spec : forall t, headed t -> pos t = option_map fst (hd_error (spans t)).
Proof.
  induction t as [i h tl k IH] using pn_ind2. intros Hd. apply headed_eq in Hd. destruct Hd as [H1 H2].
  cbn [pos spans]. destruct h as [[a b]|]; [reflexivity|]. rewrite (H1 eq_refl). cbn [olist app]. rewrite app_nil_r.
  clear H1. induction k as [|n r IHk]; [reflexivity|]. cbn [flat_map].
  rewrite (Forall_inv IH) by exact (Forall_inv H2). apply Forall_inv_tail in IH. apply Forall_inv_tail in H2. destruct (spans n); cbn [hd_error app option_map]; [apply IHk; assumption|reflexivity].
Qed.

Lemma pend_spec : forall t, pend t = option_map snd (lasto (spans t)).
Proof.
  induction t as [i h tl k IH] using pn_ind2. cbn [pend spans]. rewrite !lasto_app.
  destruct tl as [[a b]|]; [reflexivity|]. cbn [olist lasto rev hd_error].
  assert (E : (fix last_of (l : list pn) : option nat :=
               match l with [] => None | n :: r => match last_of r with Some j => Some j | None => pend n end end) k
              = option_map snd (lasto (flat_map spans k))).
  { induction k as [|n r IHk]; [reflexivity|]. inversion IH; subst. cbn [flat_map]. rewrite lasto_app, IHk by assumption.
    destruct (lasto (flat_map spans r)); [reflexivity|]. cbn. assumption. }
  rewrite E. destruct (lasto (flat_map spans k)); [reflexivity|]. destruct h as [[a b]|]; reflexivity.
Qed.

Lemma hd_begins : forall t i, option_map fst (hd_error (spans t)) = Some i <-> begins t i.
Proof.
  intros. unfold begins. destruct (spans t) as [|[a b] r]; cbn.
  - split; [discriminate|]. intros (j & r & E); discriminate.
  - split; [intros E; injection E as <-; eauto|]. intros (j & r' & E). injection E; intros; subst; reflexivity.
Qed.
Lemma last_ends : forall t j, option_map snd (lasto (spans t)) = Some j <-> ends t j.
Proof.
  intros. unfold ends, lasto. split.
  - intros E. destruct (rev (spans t)) as [|[a b] r] eqn:F; [discriminate|]. cbn in E. injection E as <-.
    exists a, (rev r). rewrite <- (rev_involutive (spans t)), F. reflexivity.
  - intros (i & r & ->). rewrite rev_app_distr. reflexivity.
Qed.
Lemma pos_begins : forall t i, headed t -> (pos t = Some i <-> begins t i).
Proof. intros. rewrite pos_spec by assumption. apply hd_begins. Qed.
Lemma pend_ends : forall t i, (pend t = Some i <-> ends t i).
Proof. intros. rewrite pend_spec. apply last_ends. Qed.
Lemma pos_none : forall t, headed t -> (pos t = None <-> spans t = []).
Proof. intros. rewrite pos_spec by assumption. destruct (spans t); cbn; split; congruence. Qed.
Lemma pend_none : forall t, (pend t = None <-> spans t = []).
Proof.
  intros. rewrite pend_spec. unfold lasto. destruct (rev (spans t)) eqn:E; cbn; split; try congruence; intros F.
  - rewrite <- (rev_involutive (spans t)), E. reflexivity.
  - rewrite F in E. discriminate.
Qed.

(** ** Increasing places *)
Definition upto (f : nat) (l : list (nat * nat)) : nat := match lasto l with Some x => snd x | None => f end.
Lemma upto_cons : forall f x l, upto f (x :: l) = upto (snd x) l.
Proof. intros. unfold upto. change (x :: l) with ([x] ++ l). rewrite lasto_app. destruct (lasto l); reflexivity. Qed.
Lemma upto_app : forall l f r, upto f (l ++ r) = upto (upto f l) r.
Proof. intros. unfold upto. rewrite lasto_app. destruct (lasto r); reflexivity. Qed.

Lemma increasing_app : forall l f r, increasing f (l ++ r) <-> increasing f l /\ increasing (upto f l) r.
Proof.
  induction l as [|[i j] l IH]; intros f r; cbn [app increasing].
  - unfold upto, lasto. cbn. tauto.
  - rewrite upto_cons, IH. cbn [snd]. tauto.
Qed.
Lemma increasing_upto : forall l f, increasing f l -> f <= upto f l.
Proof.
  induction l as [|[i j] l IH]; intros f I; [unfold upto; cbn; lia|]. cbn in I. rewrite upto_cons. cbn.
  destruct I as (A & B & C). specialize (IH _ C). lia.
Qed.
Lemma increasing_le : forall l f g, g <= f -> increasing f l -> increasing g l.
Proof. destruct l as [|[i j] l]; cbn; intros f g L I; [exact Logic.I|]. destruct I as (A & B & C). repeat split; auto; lia. Qed.

Lemma tree_bounds : forall t f i j, increasing f (spans t) -> begins t i -> ends t j -> f <= i /\ i < j /\ upto f (spans t) = j.
Proof.
  intros t f i j I (b & r & E) F. apply last_ends in F. unfold upto.
  destruct (lasto (spans t)) as [x|] eqn:L; [|discriminate]. cbn in F. injection F as <-.
  rewrite E in I. cbn in I. destruct I as (A & B & C). apply increasing_upto in C.
  assert (D : upto b r = snd x). { rewrite <- (upto_cons 0 (i, b)), <- E. unfold upto. rewrite L. reflexivity. }
  split; [lia|]. split; [lia|reflexivity].
Qed.

Lemma begins_ends : forall t i, begins t i -> exists j, ends t j.
Proof.
  intros t i B. destruct (pend t) as [j|] eqn:E; [exists j; apply pend_ends; exact E|].
  apply pend_none in E. destruct B as (j & r & F). congruence.
Qed.

Lemma in_bounds : forall kids f m i, increasing f (flat_map spans kids) -> In m kids -> begins m i -> f <= i.
Proof.
  induction kids as [|n r IH]; intros f m i I M B; [destruct M|]. cbn [flat_map] in I. apply increasing_app in I. destruct I as [I1 I2].
  destruct M as [->|M].
  - destruct B as (j & l & E). rewrite E in I1. cbn in I1. tauto.
  - specialize (IH _ _ _ I2 M B). apply increasing_upto in I1. lia.
Qed.

Lemma later_untouched : forall kids f p, increasing f (flat_map spans kids) -> p < f -> Forall (fun m => ~ touches m p) kids.
Proof.
  intros kids f p I L. apply Forall_forall. intros m M (i & j & B & _ & A). pose proof (in_bounds _ _ _ _ I M B). lia.
Qed.

Lemma touches_none : forall n p, spans n = [] -> ~ touches n p.
Proof. intros n p E (i & j & (b & r & F) & _). congruence. Qed.

Lemma begins_fun : forall t i j, begins t i -> begins t j -> i = j.
Proof. intros t i j (a & r & E) (b & s & F). congruence. Qed.
Lemma ends_fun : forall t i j, ends t i -> ends t j -> i = j.
Proof. intros t i j A B. apply pend_ends in A. apply pend_ends in B. congruence. Qed.

Lemma child_more : forall p n r m, the_child p r m -> the_child p (n :: r) m.
Proof. intros p n r m (l1 & l2 & -> & A). exists (n :: l1), l2. split; [reflexivity|exact A]. Qed.

Lemma find_child_ok : forall p kids prev f, Forall headed kids -> increasing f (flat_map spans kids) -> f <= p ->
  (prev <> None -> f = p) ->
  exists r, find_child_loop p kids prev = Ok r /\
    ((exists n, r = Some n /\ the_child p kids n) \/ (r = prev /\ Forall (fun m => ~ touches m p) kids)).
Proof.
  intros p. induction kids as [|n r IH]; intros prev f Hd I L Pv; [exists prev; split; [reflexivity|]; right; auto|].
  pose proof I as I0. cbn [flat_map] in I. apply increasing_app in I. destruct I as [I1 I2].
  pose proof (Forall_inv Hd) as Hn. pose proof (Forall_inv_tail Hd) as Hr. cbn [find_child_loop].
  destruct (pos n) as [i|] eqn:E.
  2:{ apply pos_none in E; [|exact Hn]. rewrite E in I2. cbn in I2. destruct (IH prev f Hr I2 L Pv) as (x & R & [(m & A & B)|[A B]]).
      - exists x. split; [exact R|]. left. exists m. split; [exact A|apply child_more; exact B].
      - exists x. split; [exact R|]. right. split; [exact A|]. constructor; [apply touches_none; exact E|exact B]. }
  apply pos_begins in E; [|exact Hn]. destruct (begins_ends _ _ E) as (j & F).
  destruct (tree_bounds _ _ _ _ I1 E F) as (B1 & B2 & B3). rewrite B3 in I2.
  destruct (i =? p) eqn:C1.
  { exists (Some n). split; [reflexivity|]. left. exists n. split; [reflexivity|]. exists [], r. split; [reflexivity|]. split.
    - exists i, j. repeat split; auto; lia.
    - apply later_untouched with (f := j); [exact I2|lia]. }
  destruct (p <? i) eqn:C2.
  { exists prev. split; [reflexivity|]. right. split; [reflexivity|]. apply later_untouched with (f := i); [|lia].
    cbn [flat_map]. apply increasing_app. split; [|rewrite <- B3 in I2; unfold upto in *].
    - destruct E as (b & l & E). rewrite E in *. cbn in *. intuition lia.
    - destruct (lasto (spans n)); [exact I2|]. apply increasing_le with (f := j); [lia|]. rewrite <- B3. exact I2. }
  pose proof F as F'. apply pend_ends in F'. rewrite F'.
  destruct (p <? j) eqn:C3.
  { exists (Some n). split; [reflexivity|]. left. exists n. split; [reflexivity|]. exists [], r. split; [reflexivity|]. split.
    - exists i, j. repeat split; auto; lia.
    - apply later_untouched with (f := j); [exact I2|lia]. }
  assert (PN : prev = None). { destruct prev; [|reflexivity]. assert (f = p) by (apply Pv; discriminate). lia. }
  destruct (IH (if j =? p then Some n else None) j Hr I2) as (x & R & [(m & A & B)|[A B]]).
  - lia.
  - destruct (j =? p) eqn:C4; [lia|congruence].
  - exists x. split; [exact R|]. left. exists m. split; [exact A|apply child_more; exact B].
  - exists x. split; [exact R|]. destruct (j =? p) eqn:C4.
    + left. exists n. split; [exact A|]. exists [], r. split; [reflexivity|]. split; [|exact B]. exists i, j. repeat split; auto; lia.
    + right. split; [congruence|]. constructor; [|exact B]. intros (i' & j' & _ & D & G). pose proof (ends_fun _ _ _ F D). lia.
Qed.

(** Parts of a tree *)
Lemma kids_laid : forall t f, headed t -> increasing f (spans t) -> Forall headed (pkids t) /\ exists g, f <= g /\ increasing g (flat_map spans (pkids t)).
Proof.
  intros [i h tl k] f Hd I. apply headed_eq in Hd. split; [tauto|]. cbn [spans pkids] in *.
  apply increasing_app in I. destruct I as [I1 I]. apply increasing_app in I. destruct I as [I2 _].
  exists (upto f (olist h)). split; [apply increasing_upto; exact I1|exact I2].
Qed.
Lemma kids_laid0 : forall t f, headed t -> increasing f (spans t) -> increasing f (flat_map spans (pkids t)).
Proof. intros t f A B. destruct (kids_laid t f A B) as (_ & g & L & I). apply increasing_le with (f := g); assumption. Qed.
Lemma kid_laid : forall k n f, In n k -> increasing f (flat_map spans k) -> exists g, f <= g /\ increasing g (spans n).
Proof.
  induction k as [|m r IH]; intros n f M I; [destruct M|]. cbn [flat_map] in I. apply increasing_app in I. destruct I as [I1 I2].
  destruct M as [->|M]; [exists f; auto|]. destruct (IH _ _ M I2) as (g & A & B). exists g. apply increasing_upto in I1. split; [lia|exact B].
Qed.

Definition tree_ok (t : pn) : Prop := headed t /\ exists f, increasing f (spans t).
Lemma tree_ok_kids : forall t, tree_ok t -> Forall tree_ok (pkids t).
Proof.
  intros t [A (f & B)]. destruct (kids_laid t f A B) as (C & g & _ & D). apply Forall_forall. intros n M. split.
  - rewrite Forall_forall in C. auto.
  - destruct (kid_laid _ _ _ M D) as (x & _ & E). eauto.
Qed.

Lemma find_child_tree : forall p t, tree_ok t -> (forall i, begins t i -> i <= p) ->
  exists r, find_child p t = Ok r /\
    ((exists n, r = Some n /\ the_child p (pkids t) n) \/ (r = None /\ Forall (fun m => ~ touches m p) (pkids t))).
Proof.
  intros p t [A (f & B)] L.
  destruct (pos t) as [i|] eqn:E.
  - apply pos_begins in E; [|exact A]. pose proof (L _ E) as Li.
    assert (I : increasing i (spans t)). { destruct E as (b & l & E). rewrite E in *. cbn in *. intuition lia. }
    destruct (kids_laid t f A B) as (C & _). apply find_child_ok with (f := i); [exact C|apply kids_laid0; assumption|exact Li|congruence].
  - apply pos_none in E; [|exact A]. destruct (kids_laid t f A B) as (C & _).
    apply find_child_ok with (f := 0); [exact C|apply kids_laid0; [exact A|rewrite E; exact Logic.I]|lia|congruence].
Qed.

(** Without a condition on the beginning of the parent: if the children all lie after [p] *)
Lemma find_child_any : forall p t, tree_ok t ->
  exists r, find_child p t = Ok r /\
    ((exists n, r = Some n /\ the_child p (pkids t) n) \/ (r = None /\ Forall (fun m => ~ touches m p) (pkids t))).
Proof.
  intros p t [A (f & B)]. destruct (kids_laid t f A B) as (C & _). pose proof (kids_laid0 _ _ A B) as I.
  apply find_child_ok with (f := 0); [exact C|apply increasing_le with (f := f); [lia|exact I]|lia|congruence].
Qed.

Lemma height_kid : forall t n, In n (pkids t) -> height n < height t.
Proof.
  intros [i h tl k] n. cbn [pkids height]. induction k as [|m r IH]; [intros []|]. intros [->|M]; [lia|]. specialize (IH M). lia.
Qed.

Lemma child_in : forall p k n, the_child p k n -> In n k.
Proof. intros p k n (l1 & l2 & -> & _). apply in_or_app. right. left. reflexivity. Qed.

Lemma child_fun : forall p k n m, the_child p k n -> the_child p k m -> n = m.
Proof.
  intros p k n m (a & b & E1 & T1 & F1) (c & d & E2 & T2 & F2). rewrite E1 in E2. clear E1. revert c E2.
  induction a as [|x a IH]; intros c E2; destruct c as [|y c]; cbn in E2; injection E2; intros E3 E4; subst; auto.
  - exfalso. rewrite Forall_app in F1. destruct F1 as [_ F1]. inversion F1; subst. contradiction.
  - exfalso. rewrite Forall_app in F2. destruct F2 as [_ F2]. inversion F2; subst. contradiction.
  - eapply IH; eauto.
Qed.

Lemma descendants_loop_ok : forall p e fuel t r, tree_ok t -> height t <= fuel ->
  find_child p t = Ok r -> 
  exists l, find_descendants_loop p fuel e r = Ok l /\ chain p e (pkids t) l.
Proof.
  intros p e. induction fuel as [|fuel IH]; intros t r K Hf R; [destruct t; cbn in Hf; lia|].
  cbn [find_descendants_loop]. destruct (find_child_any p t K) as (r' & R' & S). rewrite R in R'. injection R' as <-.
  destruct S as [(n & -> & C)|[-> N]].
  2:{ exists []. split; [reflexivity|]. constructor. intros n (l1 & l2 & E & T & _). rewrite E in N.
      rewrite Forall_app in N. destruct N as [_ N]. inversion N; contradiction. }
  pose proof (child_in _ _ _ C) as M. pose proof (tree_ok_kids _ K) as Kk. rewrite Forall_forall in Kk. specialize (Kk n M).
  pose proof C as C0. destruct C0 as (l1 & l2 & _ & (i & j & B & E & L) & _).
  assert (Pn : pos n = Some i) by (apply pos_begins; [apply Kk|exact B]). assert (En : pend n = Some j) by (apply pend_ends; exact E).
  rewrite Pn, En. destruct ((i <=? p) && (e <=? j)) eqn:D.
  - destruct (find_child_any p n Kk) as (m & Q1 & _). rewrite Q1. cbn [bindr].
    destruct (IH n m Kk) as (l & L1 & L2); [pose proof (height_kid _ _ M); lia|exact Q1|].
    rewrite L1. cbn [bindr]. exists (n :: l). split; [reflexivity|]. apply chain_more; auto. exists i, j. repeat split; auto; lia.
  - exists []. split; [reflexivity|]. constructor. intros n' C'. rewrite <- (child_fun _ _ _ _ C C').
    intros (i' & j' & B' & E' & L'). pose proof (begins_fun _ _ _ B B'). pose proof (ends_fun _ _ _ E E'). lia.
Qed.

(** ** find_descendant_right *)
Fixpoint steps_list (l : list pn) : nat := match l with [] => 0 | n :: r => steps n + steps_list r end.
Lemma steps_eq : forall t, steps t = S (S (steps_list (pkids t))).
Proof. intros [i h tl k]. cbn [steps pkids]. do 2 f_equal. Qed.
Fixpoint measure (gens : list (list pn)) : nat := match gens with [] => 0 | g :: r => S (steps_list g) + measure r end.

Lemma pre_eq : forall t, pre t = t :: flat_map pre (pkids t).
Proof. intros [i h tl k]. reflexivity. Qed.

Lemma spans_eq : forall t, spans t = olist (phead t) ++ flat_map spans (pkids t) ++ olist (ptail t).
Proof. intros [i h tl k]. reflexivity. Qed.

Lemma kid_infix : forall k n, In n k -> exists a b, flat_map spans k = a ++ spans n ++ b.
Proof.
  induction k as [|m r IH]; intros n M; [destruct M|]. destruct M as [->|M].
  - exists [], (flat_map spans r). reflexivity.
  - destruct (IH n M) as (a & b & E). exists (spans m ++ a), b. cbn. rewrite E, app_assoc. reflexivity.
Qed.
Lemma pre_infix : forall t d, In d (pre t) -> exists a b, spans t = a ++ spans d ++ b.
Proof.
  induction t as [i h tl k IH] using pn_ind2. intros d M. rewrite pre_eq in M. destruct M as [<-|M].
  - exists [], []. cbn [app]. rewrite app_nil_r. reflexivity.
  - cbn [pkids] in M. apply in_flat_map in M. destruct M as (n & M1 & M2).
    rewrite Forall_forall in IH. destruct (IH n M1 d M2) as (a & b & E). destruct (kid_infix k n M1) as (a' & b' & E').
    cbn [spans]. rewrite E', E. exists (olist h ++ a' ++ a), (b ++ b' ++ olist tl). rewrite <- !app_assoc. reflexivity.
Qed.
Lemma pre_headed : forall t d, headed t -> In d (pre t) -> headed d.
Proof.
  induction t as [i h tl k IH] using pn_ind2. intros d Hd M. rewrite pre_eq in M. destruct M as [<-|M]; [exact Hd|].
  apply headed_eq in Hd. destruct Hd as [_ Hk]. cbn [pkids] in M. apply in_flat_map in M. destruct M as (n & M1 & M2).
  rewrite Forall_forall in IH, Hk. eauto.
Qed.

Lemma infix_bounds : forall t d f i j, increasing f (spans t) -> (exists a b, spans t = a ++ spans d ++ b) ->
  begins d i -> ends d j -> (forall j', ends t j' -> j <= j') /\ (forall i', begins t i' -> i' <= i) /\ i < j.
Proof.
  intros t d f i j I (a & b & E) B F. rewrite E in I. apply increasing_app in I. destruct I as [I1 I].
  apply increasing_app in I. destruct I as [I2 I3]. destruct (tree_bounds _ _ _ _ I2 B F) as (T1 & T2 & T3).
  split; [|split; [|exact T2]].
  - intros j' X. apply last_ends in X. rewrite E, !lasto_app in X. rewrite T3 in I3. apply increasing_upto in I3. unfold upto in I3.
    destruct (lasto b) as [y|]; [cbn in X; injection X as <-; lia|].
    apply last_ends in F. destruct (lasto (spans d)); [|discriminate]. cbn in *. injection F as <-. injection X as <-. lia.
  - intros i' (c & r & X). rewrite E in X. destruct a as [|[u v] a]; cbn in X.
    + destruct B as (e & s & Bs). rewrite Bs in X. cbn in X. injection X; intros; subst. lia.
    + injection X; intros; subst. cbn in I1. destruct I1 as (_ & U1 & U2). apply increasing_upto in U2.
      rewrite upto_cons in T1. cbn in T1. lia.
Qed.

Definition starts_at (p : nat) (d : pn) : bool := match pos d with Some i => p <=? i | None => false end.
Definition stops_at (p : nat) (d : pn) : bool := match pend d with Some j => j <=? p | None => false end.

Lemma find_skip : forall A (f : A -> bool) l r, Forall (fun x => f x = false) l -> find f (l ++ r) = find f r.
Proof. induction 1 as [|x l E F IH]; [reflexivity|]. cbn. rewrite E. exact IH. Qed.

Lemma right_ok : forall p fuel gens, Forall (Forall tree_ok) gens -> measure gens < fuel ->
  right_loop p fuel gens = Ok (find (starts_at p) (flat_map pre (concat gens))).
Proof.
  intros p. induction fuel as [|fuel IH]; intros gens K M; [lia|]. cbn [right_loop].
  destruct gens as [|[|n gen] gens]; [reflexivity| |].
  { rewrite IH; [reflexivity|exact (Forall_inv_tail K)|cbn in M; lia]. }
  pose proof (Forall_inv K) as K1. pose proof (Forall_inv_tail K) as K2. pose proof (Forall_inv K1) as Kn. pose proof (Forall_inv_tail K1) as Kg.
  cbn [measure steps_list] in M. pose proof (steps_eq n) as Sn.
  assert (SK : Forall (fun x => starts_at p x = false) (pre n) ->
     right_loop p fuel (gen :: gens) = Ok (find (starts_at p) (flat_map pre (concat ((n :: gen) :: gens))))).
  { intros F. rewrite IH; [|constructor; assumption|cbn; lia]. cbn [concat app flat_map]. rewrite find_skip by exact F. reflexivity. }
  destruct Kn as [Hn (f & In_)].
  destruct (pend n) as [j|] eqn:E.
  2:{ apply SK. apply Forall_forall. intros d D. apply pend_none in E. destruct (pre_infix _ _ D) as (a & b & X). rewrite E in X.
      symmetry in X. apply app_eq_nil in X. destruct X as [_ X]. apply app_eq_nil in X. destruct X as [X _].
      unfold starts_at. rewrite (proj2 (pos_none d (pre_headed _ _ Hn D)) X). reflexivity. }
  apply pend_ends in E. destruct (p <? j) eqn:C.
  2:{ apply SK. apply Forall_forall. intros d D. unfold starts_at. destruct (pos d) as [i|] eqn:F; [|reflexivity].
      apply pos_begins in F; [|exact (pre_headed _ _ Hn D)]. destruct (begins_ends _ _ F) as (j' & G).
      destruct (infix_bounds n d f i j' In_ (pre_infix _ _ D) F G) as (B1 & _ & B2). specialize (B1 _ E). lia. }
  destruct (pos n) as [i|] eqn:F.
  2:{ apply pos_none in F; [|exact Hn]. apply pend_ends in E. rewrite (proj2 (pend_none n) F) in E. discriminate. }
  destruct (p <=? i) eqn:C2.
  - cbn [concat app flat_map]. rewrite pre_eq. cbn [app find]. unfold starts_at at 1. rewrite F, C2. reflexivity.
  - rewrite IH.
    + cbn [concat app flat_map]. rewrite (pre_eq n). cbn [app find]. unfold starts_at at 2. rewrite F, C2. rewrite flat_map_app. reflexivity.
    + constructor; [apply tree_ok_kids; split; eauto|]. constructor; assumption.
    + cbn [measure]. lia.
Qed.

(** ** find_descendant_left *)
Definition rpost (t : pn) : list pn := rev (post t).
Lemma rev_flat_map : forall A B (f : A -> list B) l, rev (flat_map f l) = flat_map (fun x => rev (f x)) (rev l).
Proof.
  induction l as [|x l IH]; [reflexivity|]. cbn. rewrite rev_app_distr, flat_map_app, IH. cbn. rewrite app_nil_r. reflexivity.
Qed.
Lemma rpost_eq : forall t, rpost t = t :: flat_map rpost (rev (pkids t)).
Proof. intros [i h tl k]. unfold rpost. cbn [post pkids]. rewrite rev_app_distr, rev_flat_map. reflexivity. Qed.
Lemma rpost_pre : forall t d, In d (rpost t) -> In d (pre t).
Proof.
  induction t as [i h tl k IH] using pn_ind2. intros d M. rewrite rpost_eq in M. rewrite pre_eq. destruct M as [<-|M]; [left; reflexivity|right].
  cbn [pkids] in *. apply in_flat_map in M. destruct M as (n & M1 & M2). apply in_rev in M1. apply in_flat_map. exists n. split; [exact M1|].
  rewrite Forall_forall in IH. auto.
Qed.
Lemma steps_list_app : forall a b, steps_list (a ++ b) = steps_list a + steps_list b.
Proof. induction a; intros b; cbn; [reflexivity|rewrite IHa; lia]. Qed.
Lemma steps_list_rev : forall a, steps_list (rev a) = steps_list a.
Proof. induction a as [|x a IH]; [reflexivity|]. cbn. rewrite steps_list_app, IH. cbn. lia. Qed.

Lemma left_ok : forall p fuel gens, Forall (Forall tree_ok) gens -> measure gens < fuel ->
  left_loop p fuel gens = Ok (find (stops_at p) (flat_map rpost (concat gens))).
Proof.
  intros p. induction fuel as [|fuel IH]; intros gens K M; [lia|]. cbn [left_loop].
  destruct gens as [|[|n gen] gens]; [reflexivity| |].
  { rewrite IH; [reflexivity|exact (Forall_inv_tail K)|cbn in M; lia]. }
  pose proof (Forall_inv K) as K1. pose proof (Forall_inv_tail K) as K2. pose proof (Forall_inv K1) as Kn. pose proof (Forall_inv_tail K1) as Kg.
  cbn [measure steps_list] in M. pose proof (steps_eq n) as Sn.
  assert (SK : Forall (fun x => stops_at p x = false) (rpost n) ->
     left_loop p fuel (gen :: gens) = Ok (find (stops_at p) (flat_map rpost (concat ((n :: gen) :: gens))))).
  { intros F. rewrite IH; [|constructor; assumption|cbn; lia]. cbn [concat app flat_map]. rewrite find_skip by exact F. reflexivity. }
  pose proof Kn as Kn0. destruct Kn as [Hn (f & In_)].
  destruct (pos n) as [i|] eqn:E.
  2:{ apply SK. apply Forall_forall. intros d D. apply rpost_pre in D. apply pos_none in E; [|exact Hn]. destruct (pre_infix _ _ D) as (a & b & X). rewrite E in X.
      symmetry in X. apply app_eq_nil in X. destruct X as [_ X]. apply app_eq_nil in X. destruct X as [X _].
      unfold stops_at. rewrite (proj2 (pend_none d) X). reflexivity. }
  apply pos_begins in E; [|exact Hn]. destruct (i <? p) eqn:C.
  2:{ apply SK. apply Forall_forall. intros d D. apply rpost_pre in D. unfold stops_at. destruct (pend d) as [j|] eqn:F; [|reflexivity].
      pose proof F as F0. apply pend_ends in F. destruct (pos d) as [i'|] eqn:G.
      2:{ apply pos_none in G; [|exact (pre_headed _ _ Hn D)]. rewrite (proj2 (pend_none d) G) in F0. discriminate. }
      apply pos_begins in G; [|exact (pre_headed _ _ Hn D)].
      destruct (infix_bounds n d f i' j In_ (pre_infix _ _ D) G F) as (_ & B1 & B2). specialize (B1 _ E). lia. }
  destruct (begins_ends _ _ E) as (j & F). pose proof (proj2 (pend_ends n j) F) as F'. rewrite F'.
  destruct (j <=? p) eqn:C2.
  - cbn [concat app flat_map]. rewrite rpost_eq. cbn [app find]. unfold stops_at at 1. rewrite F', C2. reflexivity.
  - rewrite IH.
    + cbn [concat app flat_map]. rewrite (rpost_eq n). cbn [app find]. unfold stops_at at 2. rewrite F', C2. rewrite flat_map_app. reflexivity.
    + constructor; [|constructor; assumption]. pose proof (tree_ok_kids _ Kn0) as T. rewrite Forall_forall in *. intros x X. apply T. apply in_rev. exact X.
    + cbn [measure]. rewrite steps_list_rev. lia.
Qed.

Lemma find_first : forall A (f : A -> bool) l x, find f l = Some x ->
  exists l1 l2, l = l1 ++ x :: l2 /\ f x = true /\ Forall (fun y => f y = false) l1.
Proof.
  induction l as [|y l IH]; intros x E; [discriminate|]. cbn in E. destruct (f y) eqn:F.
  - injection E as ->. exists [], l. auto.
  - destruct (IH x E) as (l1 & l2 & -> & A1 & A2). exists (y :: l1), l2. split; [reflexivity|]. split; auto.
Qed.
