From Coq Require Import List ZArith QArith Bool Lia.
From Verif Require Import Base Duration_Model Rhythm_Model Getter_Model Getter_Spec.
Import ListNotations.
Open Scope nat_scope.

Lemma bwdp_eq p n : bwdp p n = (p, n) :: bwdl p 0 (kids_of n).
Proof.
  destruct n as [k b d kids]. cbn [bwdp kids_of]. f_equal. generalize 0. induction kids as [|c r IH]; intros i; [reflexivity|]. cbn [bwdl]. rewrite <- IH. reflexivity.
Qed.
Lemma bwdl_app p a : forall i b, bwdl p i (a ++ b) = bwdl p (i + length a) b ++ bwdl p i a.
Proof. induction a as [|c a IH]; intros i b; cbn [app bwdl length]; [rewrite Nat.add_0_r, app_nil_r; reflexivity|]. rewrite IH, <- app_assoc. replace (S i + length a) with (i + S (length a)) by lia. reflexivity. Qed.

Lemma node_at_snoc n p i : node_at n (p ++ [i]) = match node_at n p with Some m => nth_error (kids_of m) i | None => None end.
Proof. revert n. induction p as [|j p IH]; intros n; cbn [app node_at]; [destruct (nth_error (kids_of n) i); reflexivity|]. destruct (nth_error (kids_of n) j); [apply IH|reflexivity]. Qed.
Lemma node_at_app n p q : node_at n (p ++ q) = match node_at n p with Some m => node_at m q | None => None end.
Proof. revert n. induction p as [|j p IH]; intros n; cbn [app node_at]; [reflexivity|]. destruct (nth_error (kids_of n) j); [apply IH|reflexivity]. Qed.
Lemma backs_snoc path : forall p n b i m, node_at n path = Some m -> i < length (kids_of m) ->
  backs p n b (path ++ [i]) = bwdl (p ++ path) 0 (firstn i (kids_of m)) ++ backs p n b path.
Proof.
  induction path as [|j path IH]; intros p n b i m N L; cbn [app backs node_at] in *.
  - injection N as <-. destruct (nth_error (kids_of n) i) eqn:E; [|apply nth_error_None in E; lia]. rewrite app_nil_r. reflexivity.
  - destruct (nth_error (kids_of n) j) as [c|]; [|discriminate]. rewrite (IH _ _ _ _ _ N L). rewrite <- app_assoc. reflexivity.
Qed.
Lemma backward_snoc root p i m : node_at root p = Some m -> i < length (kids_of m) -> backward root (p ++ [i]) = bwdl p 0 (firstn i (kids_of m)) ++ backward root p.
Proof. intros N L. unfold backward. rewrite (backs_snoc _ _ _ _ _ _ N L). reflexivity. Qed.

Lemma rn_induction (P : rn -> Prop) : (forall k b d kids, (forall c, In c kids -> P c) -> P (RN k b d kids)) -> forall n, P n.
Proof. intros H. fix rec 1. intros [k b d kids]. apply H. induction kids as [|c kids IH]; [intros c []|]. intros c' [<-|I]; [apply rec|exact (IH c' I)]. Qed.

(** What comes after a node when going back: its descendants, then what is before it. *)
Definition proper (root : rn) (L : list (list nat * rn)) : Prop := forall l1 q m l2, L = l1 ++ (q, m) :: l2 ->
  node_at root q = Some m /\ l2 = bwdl q 0 (kids_of m) ++ backward root q.

Lemma firstn_S_nth {A} i (l : list A) x : nth_error l i = Some x -> firstn (S i) l = firstn i l ++ [x].
Proof. revert l. induction i as [|i IH]; intros [|y l] H; try discriminate; cbn in *; [injection H as ->; reflexivity|]. rewrite <- (IH l H). destruct l; reflexivity. Qed.

Lemma proper_node root n : forall p, node_at root p = Some n -> proper root (backward root p) -> proper root (bwdp p n ++ backward root p).
Proof.
  induction n as [k b d kids IH] using rn_induction. intros p N PB.
  assert (K : forall i, i <= length kids -> proper root (bwdl p 0 (firstn i kids) ++ backward root p)).
  { induction i as [|i IHi]; intros L; [exact PB|]. destruct (nth_error kids i) as [c|] eqn:C; [|apply nth_error_None in C; lia].
    rewrite (firstn_S_nth _ _ _ C), bwdl_app, firstn_length, Nat.min_l by lia. cbn [bwdl plus app]. rewrite <- app_assoc.
    pose proof (backward_snoc root p i (RN k b d kids) N ltac:(cbn; lia)) as BS. cbn [kids_of] in BS. rewrite <- BS. apply IH; [eapply nth_error_In; eauto|rewrite node_at_snoc, N; exact C|].
    rewrite BS. apply IHi. lia. }
  specialize (K (length kids) (le_n _)). rewrite firstn_all in K. rewrite bwdp_eq. cbn [kids_of]. intros l1 q m l2 E. destruct l1 as [|x l1].
  - injection E as <- <- <-. auto.
  - injection E as _ E. exact (K _ _ _ _ E).
Qed.
Lemma proper_back root p n : node_at root p = Some n -> proper root (backward root p).
Proof.
  revert n. induction p as [|i p IH] using rev_ind; intros n N.
  - intros [|x l1] q m l2 E; discriminate.
  - rewrite node_at_snoc in N. destruct (node_at root p) as [m|] eqn:M; [|discriminate]. assert (L : i < length (kids_of m)) by (apply nth_error_Some; congruence).
    rewrite (backward_snoc _ _ _ _ M L). specialize (IH m eq_refl). pose proof (proper_node root m p M IH) as P.
    intros l1 q x l2 E. apply (P ((p, m) :: bwdl p i (skipn i (kids_of m)) ++ l1) q x l2). rewrite bwdp_eq. cbn [app]. f_equal.
    rewrite <- (firstn_skipn i (kids_of m)) at 1. rewrite bwdl_app, firstn_length, Nat.min_l by lia. cbn [plus]. rewrite <- !app_assoc. f_equal. exact E.
Qed.

Lemma bwdl_below p : forall l i q m, In (q, m) (bwdl p i l) -> exists j r c, q = p ++ (i + j) :: r /\ nth_error l j = Some c /\ node_at c r = Some m.
Proof.
  assert (B : forall c p q m, In (q, m) (bwdp p c) -> exists r, q = p ++ r /\ node_at c r = Some m).
  { clear. intros c. induction c as [k b d kids IH] using rn_induction. intros p q m I. rewrite bwdp_eq in I. cbn [kids_of] in I. destruct I as [[= <- <-]|I]; [exists []; rewrite app_nil_r; auto|].
    assert (G : forall l i, (forall c, In c l -> In c kids) -> In (q, m) (bwdl p i l) -> exists j r c, q = p ++ (i + j) :: r /\ nth_error l j = Some c /\ node_at c r = Some m).
    { clear I. induction l as [|c l IHl]; intros i S I; [destruct I|]. cbn [bwdl] in I. apply in_app_iff in I. destruct I as [I|I].
      - destruct (IHl (Datatypes.S i)) as (j & r & c' & -> & E & F); [intros x X; apply S; right; exact X|exact I|]. exists (Datatypes.S j), r, c'. rewrite Nat.add_succ_r. auto.
      - destruct (IH c (S c (or_introl eq_refl)) _ _ _ I) as (r & -> & F). exists 0, r, c. rewrite Nat.add_0_r, <- app_assoc. auto. }
    destruct (G kids 0 (fun _ X => X) I) as (j & r & c & -> & E & F). exists (j :: r). split; [reflexivity|]. cbn [node_at kids_of]. rewrite E. exact F. }
  induction l as [|c l IHl]; intros i q m I; [destruct I|]. cbn [bwdl] in I. apply in_app_iff in I. destruct I as [I|I].
  - destruct (IHl (S i) q m I) as (j & r & c' & -> & E & F). exists (S j), r, c'. rewrite Nat.add_succ_r. auto.
  - destruct (B _ _ _ _ I) as (r & -> & F). exists 0, r, c. rewrite Nat.add_0_r, <- app_assoc. auto.
Qed.

Definition sets (n : rn) : bool := sets_previous (kind_of n) && match durs_of n with [] => false | _ => true end.
Lemma previous_skip a b : (forall n, In n a -> sets n = false) -> previous_duration (a ++ b) = previous_duration b.
Proof.
  intros H. unfold previous_duration, search. assert (find (fun n => sets_previous (kind_of n) && match durs_of n with [] => false | _ => true end) (a ++ b) = find (fun n => sets_previous (kind_of n) && match durs_of n with [] => false | _ => true end) b) as ->; [|reflexivity].
  induction a as [|x a IH]; [reflexivity|]. cbn [app find]. pose proof (H x (or_introl eq_refl)) as X. unfold sets in X. rewrite X. apply IH. intros n I. apply H. right. exact I.
Qed.
(** From a durable without duration, going back further is like going back from there. *)
Lemma previous_from root p n l1 q m l2 : flat root -> node_at root p = Some n -> backward root p = l1 ++ (q, m) :: l2 -> sets_previous (kind_of m) = true -> durs_of m = [] ->
  previous_duration (map snd l2) = previous_duration (map snd (backward root q)) /\ node_at root q = Some m.
Proof.
  intros F N E S D. destruct (proper_back root p n N _ _ _ _ E) as (NQ & ->). split; [|exact NQ]. rewrite map_app. apply previous_skip. intros x I. apply in_map_iff in I. destruct I as ((r & y) & Y & I). cbn in Y. subst y.
  destruct (bwdl_below _ _ _ _ _ I) as (j & r' & c & -> & E1 & E2). unfold sets. destruct (sets_previous (kind_of x)) eqn:SX; [|reflexivity].
  rewrite (F q (0 + j :: r') m x); auto; [|discriminate]. rewrite node_at_app, NQ. cbn [node_at plus]. rewrite E1. exact E2.
Qed.

Definition good (root : rn) (st : state) : Prop := forall p, In p (fst st) -> (exists n, node_at root p = Some n /\ durs_of n = []) /\ snd st = Some (previous_duration (map snd (backward root p))).
Lemma mem_in p s : mem p s = true <-> In p s.
Proof. unfold mem. destruct (in_dec _ p s); split; intros; auto; discriminate. Qed.

Lemma look_ok root p n st : flat root -> node_at root p = Some n -> good root st -> forall l l1 new, backward root p = l1 ++ l ->
  (forall x, In x (map snd l1) -> sets x = false) ->
  (forall x, In x new -> (exists m, node_at root x = Some m /\ durs_of m = []) /\ previous_duration (map snd (backward root x)) = previous_duration (map snd (backward root p))) ->
  let (d, st') := look st new l in d = Some (previous_duration (map snd (backward root p))) /\ good root st'.
Proof.
  intros F N G. induction l as [|[q m] l IH]; intros l1 new E S W; cbn [look].
  - assert (X : previous_duration (map snd (backward root p)) = (1 # 4, 1)%Q). { rewrite E, map_app, (previous_skip _ _ S). reflexivity. }
    rewrite X. split; [reflexivity|]. intros x I. cbn [fst snd] in *. destruct (W x I) as (A & B). split; [exact A|]. rewrite B, X. reflexivity.
  - assert (E' : backward root p = (l1 ++ [(q, m)]) ++ l) by (rewrite <- app_assoc; exact E).
    destruct (sets_previous (kind_of m)) eqn:SP.
    + destruct (durs_of m) as [|d ds] eqn:D; cbn [duration_scaling].
      * destruct (previous_from root p n l1 q m l F N E SP D) as (P & NQ).
        assert (PP : previous_duration (map snd (backward root q)) = previous_duration (map snd (backward root p))).
        { rewrite <- P, E'. rewrite map_app. rewrite previous_skip; [reflexivity|]. intros x I. rewrite map_app in I. apply in_app_iff in I. destruct I as [I|[<-|[]]]; [auto|]. unfold sets. cbn [snd]. rewrite SP, D. reflexivity. }
        destruct (mem q (fst st)) eqn:M.
        -- apply mem_in in M. destruct (G q M) as (A & B). split; [rewrite B, PP; reflexivity|]. intros x I. cbn [fst snd] in *. apply in_app_iff in I. destruct I as [I|I]; [|apply G; exact I].
           destruct (W x I) as (A' & B'). split; [exact A'|]. rewrite B, PP, B'. reflexivity.
        -- apply (IH (l1 ++ [(q, m)]) (q :: new) E').
           ++ intros x I. rewrite map_app in I. apply in_app_iff in I. destruct I as [I|[<-|[]]]; [auto|]. unfold sets. cbn [snd]. rewrite SP, D. reflexivity.
           ++ intros x [<-|I]; [split; [eauto|exact PP]|auto].
      * assert (X : previous_duration (map snd (backward root p)) = dur_value d). { rewrite E, map_app, (previous_skip _ _ S). unfold previous_duration, search. cbn [map snd find]. rewrite SP, D. cbn. rewrite D. reflexivity. }
        rewrite X. split; [reflexivity|]. intros x I. cbn [fst snd] in *. destruct (W x I) as (A & B). split; [exact A|]. rewrite B, X. reflexivity.
    + apply (IH (l1 ++ [(q, m)]) new E'); [|exact W]. intros x I. rewrite map_app in I. apply in_app_iff in I. destruct I as [I|[<-|[]]]; [auto|]. unfold sets. cbn [snd]. rewrite SP. reflexivity.
Qed.
Lemma get_ok root p n st : flat root -> node_at root p = Some n -> good root st ->
  let (d, st') := get_duration root p n st in d = effective root p /\ good root st'.
Proof.
  intros F N G. unfold get_duration, effective. rewrite N. destruct (durs_of n) as [|d ds] eqn:D; cbn [duration_scaling]; [|auto].
  destruct (mem p (fst st)) eqn:M.
  - apply mem_in in M. destruct (G p M) as (_ & B). auto.
  - apply (look_ok root p n st F N G _ [] [p]); [reflexivity|intros x []|]. intros x [<-|[]]. split; [eauto|reflexivity].
Qed.
Lemma calls_ok root : flat root -> forall l st, good root st -> calls root st l = map (effective root) l.
Proof.
  intros F. induction l as [|p l IH]; intros st G; [reflexivity|]. cbn [calls map]. destruct (node_at root p) as [n|] eqn:N.
  - pose proof (get_ok root p n st F N G) as H. destruct (get_duration root p n st) as [d st']. destruct H as (-> & G'). f_equal. apply IH. exact G'.
  - unfold effective at 1. rewrite N. f_equal. apply IH. exact G.
Qed.
Lemma good_fresh root : good root fresh. Proof. intros p []. Qed.
