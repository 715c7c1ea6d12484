From Coq Require Import List ZArith QArith Bool Lia Lqa.
From Verif Require Import Base Duration_Model Time_Model Time_Spec.
Import ListNotations.
Open Scope nat_scope.

Lemma node_at_app p : forall n q, node_at n (p ++ q) = match node_at n p with Some m => node_at m q | None => None end.
Proof. induction p as [|i p IH]; intros n q; [reflexivity|]. cbn [app node_at]. destruct (nth_error (kids_of n) i); [apply IH|reflexivity]. Qed.
Lemma node_at_snoc n p i : node_at n (p ++ [i]) = match node_at n p with Some m => nth_error (kids_of m) i | None => None end.
Proof. rewrite node_at_app. destruct (node_at n p) as [m|]; [|reflexivity]. cbn. destruct (nth_error (kids_of m) i); reflexivity. Qed.

Lemma preceding_snoc root p i : preceding_music root (p ++ [i]) =
  match node_at root p with
  | Some n => if is_music (kind_of n) then let (m, tr) := preceding_music root p in (m, tr ++ [i]) else (p ++ [i], [])
  | None => (p ++ [i], [])
  end.
Proof. unfold preceding_music. rewrite rev_app_distr. cbn [rev app preceding_rev]. rewrite rev_involutive. reflexivity. Qed.
Lemma preceding_split root p : p = fst (preceding_music root p) ++ snd (preceding_music root p).
Proof.
  induction p as [|i p IH] using rev_ind; [reflexivity|]. rewrite preceding_snoc. destruct (node_at root p) as [n|]; [|cbn; rewrite app_nil_r; reflexivity].
  destruct (is_music (kind_of n)); [|cbn; rewrite app_nil_r; reflexivity]. destruct (preceding_music root p) as [m tr]. cbn [fst snd] in *. rewrite app_assoc, <- IH. reflexivity.
Qed.
Lemma ancestors_snoc root p i : music_ancestors root (rev (p ++ [i])) =
  match node_at root p with Some n => if is_music (kind_of n) then music_ancestors root (rev p) ++ [n] else [] | None => [] end.
Proof. rewrite rev_app_distr. cbn [rev app music_ancestors]. rewrite rev_involutive. reflexivity. Qed.
Lemma parent_snoc root p i : parent_kind root (p ++ [i]) = option_map kind_of (node_at root p).
Proof. unfold parent_kind. rewrite rev_app_distr. cbn [rev app]. rewrite rev_involutive. reflexivity. Qed.

Definition context (root : mn) (p : list nat) : transform := fold_left enter (music_ancestors root (rev p)) transform_default.
Lemma context_snoc root p i n : node_at root p = Some n -> is_music (kind_of n) = true -> context root (p ++ [i]) = enter (context root p) n.
Proof. intros N M. unfold context. rewrite ancestors_snoc, N, M, fold_left_app. reflexivity. Qed.

Lemma ctx_length_eq t parent k tr v kids : ctx_length t parent (MN k tr v kids) =
  if is_reference k then match v with None => Err TypeError | Some m => ctx_length t None m end
  else if is_music k then time_length (enter t (MN k tr v kids)) parent k kids (map (ctx_length (enter t (MN k tr v kids)) (Some k)) kids) None
  else Ok 0%Q.
Proof. reflexivity. Qed.
Lemma ctx_length_other t parent n : is_music (kind_of n) = false -> is_reference (kind_of n) = false -> ctx_length t parent n = Ok 0%Q.
Proof. destruct n as [k tr v kids]. cbn [kind_of]. intros M R. rewrite ctx_length_eq, R, M. reflexivity. Qed.

Lemma length_ctx root p n : node_at root p = Some n -> length root p = ctx_length (context root p) (parent_kind root p) n.
Proof.
  intros N. unfold length. rewrite N. destruct (is_music (kind_of n)) eqn:M; [reflexivity|]. destruct (is_reference (kind_of n)) eqn:R; [reflexivity|]. cbn [orb].
  rewrite !ctx_length_other by assumption. reflexivity.
Qed.
Lemma length_child root p n i c : node_at root p = Some n -> is_music (kind_of n) = true -> nth_error (kids_of n) i = Some c ->
  length root (p ++ [i]) = ctx_length (enter (context root p) n) (Some (kind_of n)) c.
Proof.
  intros N M C. assert (NC : node_at root (p ++ [i]) = Some c) by (rewrite node_at_snoc, N; exact C).
  rewrite (length_ctx _ _ _ NC), (context_snoc _ _ _ _ N M), parent_snoc, N. reflexivity.
Qed.

(** ** Following a trail *)
Lemma follow_app a : forall t par n q b, follow_trail t par n q (a ++ b) = let! (t', par', n', q') := follow_trail t par n q a in follow_trail t' par' n' q' b.
Proof.
  induction a as [|i a IH]; intros t par n q b; [reflexivity|]. cbn [app follow_trail].
  destruct (if negb (i =? 0) && is_sequential par (kind_of n) then _ else _) as [q1|e]; cbn [bindr]; [|reflexivity].
  destruct (nth_error (kids_of n) i) as [c|]; [apply IH|reflexivity].
Qed.
Lemma follow_offset a : forall t par n q0 q1, (exists e, follow_trail t par n q0 a = Err e /\ follow_trail t par n q1 a = Err e) \/
  exists t' par' n' r0 r1, follow_trail t par n q0 a = Ok (t', par', n', r0) /\ follow_trail t par n q1 a = Ok (t', par', n', r1) /\ (r1 - r0 == q1 - q0)%Q.
Proof.
  induction a as [|i a IH]; intros t par n q0 q1; cbn [follow_trail].
  - right. do 5 eexists. split; [reflexivity|]. split; [reflexivity|]. reflexivity.
  - destruct (negb (i =? 0) && is_sequential par (kind_of n)).
    + destruct (time_length _ _ _ _ _ _) as [l|e]; cbn [bindr]; [|left; eauto].
      destruct (nth_error (kids_of n) i) as [c|]; [|left; eauto].
      destruct (IH (enter t n) (Some (kind_of n)) c (q0 + l)%Q (q1 + l)%Q) as [L|(t' & par' & n' & r0 & r1 & A & B & C)]; [left; exact L|right].
      do 5 eexists. split; [exact A|]. split; [exact B|]. rewrite C. ring.
    + cbn [bindr]. destruct (nth_error (kids_of n) i) as [c|]; [|left; eauto]. apply IH.
Qed.

(** What following the trail from the topmost music gives. *)
Lemma follow_to root p : forall n, node_at root p = Some n ->
  let (m, tr) := preceding_music root p in exists mm, node_at root m = Some mm /\
  match follow_trail transform_default (parent_kind root m) mm 0%Q tr with
  | Ok (t, par, n', q) => n' = n /\ par = parent_kind root p /\ t = context root p
  | Err _ => True
  end.
Proof.
  induction p as [|i p IH] using rev_ind; intros n N.
  - cbn. injection N as <-. exists root. cbn. auto.
  - pose proof N as N'. rewrite node_at_snoc in N'. destruct (node_at root p) as [pn|] eqn:NP; [|discriminate]. rewrite preceding_snoc, NP.
    specialize (IH _ eq_refl). destruct (is_music (kind_of pn)) eqn:M.
    + destruct (preceding_music root p) as [m tr]. destruct IH as (mm & NM & F). exists mm. split; [exact NM|]. rewrite follow_app.
      destruct (follow_trail transform_default (parent_kind root m) mm 0%Q tr) as [[[[t par] n'] q]|e]; cbn [bindr]; [|exact Logic.I].
      destruct F as (-> & -> & ->). cbn [follow_trail].
      destruct (if negb (i =? 0) && is_sequential (parent_kind root p) (kind_of pn) then _ else _) as [q1|e]; cbn [bindr]; [|exact Logic.I]. rewrite N'. split; [reflexivity|].
      rewrite parent_snoc, NP, (context_snoc _ _ _ _ NP M). auto.
    + exists n. split; [exact N|]. cbn [follow_trail]. split; [reflexivity|]. split; [reflexivity|]. unfold context. rewrite ancestors_snoc, NP, M. reflexivity.
Qed.

Lemma position_child root p n i c : node_at root p = Some n -> is_music (kind_of n) = true -> nth_error (kids_of n) i = Some c ->
  position root (p ++ [i]) false =
  let! (m, q) := position root p false in
  let! q := (if negb (i =? 0) && is_sequential (parent_kind root p) (kind_of n)
             then let! l := time_length (enter (context root p) n) (parent_kind root p) (kind_of n) (kids_of n) (map (ctx_length (enter (context root p) n) (Some (kind_of n))) (kids_of n)) (Some i) in Ok (q + l)%Q
             else Ok q) in Ok (m, q).
Proof.
  intros N M C. unfold position. rewrite preceding_snoc, N, M. pose proof (follow_to root p n N) as F. destruct (preceding_music root p) as [m tr]. destruct F as (mm & NM & F). rewrite NM.
  rewrite follow_app. destruct (follow_trail transform_default (parent_kind root m) mm 0%Q tr) as [[[[t par] n'] q]|e]; cbn [bindr]; [|reflexivity].
  destruct F as (-> & -> & ->). cbn [follow_trail].
  destruct (if negb (i =? 0) && is_sequential (parent_kind root p) (kind_of n) then _ else _) as [q1|e]; cbn [bindr]; [|reflexivity]. rewrite C. reflexivity.
Qed.

Lemma position_include root p n : node_at root p = Some n ->
  position root p true = let! (m, q) := position root p false in let! l := length root p in Ok (m, (q + l)%Q).
Proof.
  intros N. unfold position. pose proof (follow_to root p n N) as F. destruct (preceding_music root p) as [m tr]. destruct F as (mm & NM & F). rewrite NM.
  destruct (follow_trail transform_default (parent_kind root m) mm 0%Q tr) as [[[[t par] n'] q]|e]; cbn [bindr]; [|reflexivity].
  destruct F as (-> & -> & ->). rewrite (length_ctx _ _ _ N). reflexivity.
Qed.

(** ** Sums *)
Lemma sum_app a : forall acc b, sum acc (a ++ b) = let! q := sum acc a in sum q b.
Proof. induction a as [|r a IH]; intros acc b; [reflexivity|]. cbn [app sum]. destruct r; cbn [bindr]; [apply IH|reflexivity]. Qed.
Lemma sum_ok l : forall acc q, sum acc l = Ok q -> exists ls, Forall2 (fun r x => r = Ok x) l ls /\ (q == acc + total ls)%Q.
Proof.
  induction l as [|r l IH]; intros acc q; cbn [sum]; [intros [= <-]; exists []; split; [constructor|cbn; ring]|].
  destruct r as [x|e]; cbn [bindr]; [|discriminate]. intros E. destruct (IH _ _ E) as (ls & F & Z). exists (x :: ls). split; [constructor; auto|]. change (total (x :: ls)) with (x + total ls)%Q. rewrite Z. ring.
Qed.
Lemma sum_total l ls : Forall2 (fun r x => r = Ok x) l ls -> forall acc, exists q, sum acc l = Ok q /\ (q == acc + total ls)%Q.
Proof.
  induction 1 as [|r x l ls E F IH]; intros acc; cbn [sum]; [exists acc; split; [reflexivity|cbn; ring]|]. rewrite E. cbn [bindr]. destruct (IH (acc + x)%Q) as (q & -> & Z). exists q. split; [reflexivity|]. rewrite Z. change (total (x :: ls)) with (x + total ls)%Q. ring.
Qed.
Lemma maximum_ok l : forall acc q, maximum acc l = Ok q -> exists ls, Forall2 (fun r x => r = Ok x) l ls /\
  match acc with
  | Some m => (q = m \/ In q ls) /\ (m <= q)%Q /\ forall x, In x ls -> (x <= q)%Q
  | None => match ls with [] => q = 0%Q | _ => In q ls /\ forall x, In x ls -> (x <= q)%Q end
  end.
Proof.
  induction l as [|r l IH]; intros acc q; cbn [maximum].
  - intros [= <-]. exists []. split; [constructor|]. destruct acc; [|reflexivity]. split; [auto|]. split; [apply Qle_refl|intros x []].
  - destruct r as [x|e]; cbn [bindr]; [|discriminate]. intros E. destruct (IH _ _ E) as (ls & F & Z). exists (x :: ls). split; [constructor; auto|].
    destruct acc as [m|].
    + destruct (Qle_bool x m) eqn:LE.
      * apply Qle_bool_iff in LE. destruct Z as (Z1 & Z2 & Z3). split; [destruct Z1; [auto|right; right; auto]|]. split; [exact Z2|]. intros y [<-|I]; [eapply Qle_trans; eauto|auto].
      * assert (m <= x)%Q. { destruct (Qlt_le_dec x m) as [L|L]; [|exact L]. apply Qlt_le_weak, Qle_bool_iff in L. congruence. }
        destruct Z as (Z1 & Z2 & Z3). split; [right; destruct Z1; [left; auto|right; auto]|]. split; [eapply Qle_trans; eauto|]. intros y [<-|I]; [exact Z2|auto].
    + destruct Z as (Z1 & Z2 & Z3). split; [destruct Z1; [left; auto|right; auto]|]. intros y [<-|I]; [exact Z2|auto].
Qed.
Lemma maximum_total l ls : Forall2 (fun r x => r = Ok x) l ls -> forall acc, exists q, maximum acc l = Ok q.
Proof. induction 1 as [|r x l ls E F IH]; intros acc; cbn [maximum]; [eauto|]. rewrite E. cbn [bindr]. apply IH. Qed.

Lemma seq_map {A} (f : nat -> A -> Prop) (l : list A) : (forall i x, nth_error l i = Some x -> f i x) -> Forall2 f (seq 0 (List.length l)) l.
Proof.
  intros H. assert (G : forall k, (forall i x, nth_error l i = Some x -> f (k + i) x) -> Forall2 f (seq k (List.length l)) l).
  { clear H. induction l as [|x l IH]; intros k H; cbn; constructor; [specialize (H 0 x eq_refl); rewrite Nat.add_0_r in H; exact H|]. apply IH. intros i y E. replace (S k + i) with (k + S i) by lia. apply H. exact E. }
  apply (G 0). exact H.
Qed.
Lemma F2_nth {A B} (R : A -> B -> Prop) l m : Forall2 R l m -> forall i x, nth_error l i = Some x -> exists y, nth_error m i = Some y /\ R x y.
Proof. induction 1; intros [|i] z E; try discriminate; cbn in *; [injection E as ->; eauto|eauto]. Qed.
Lemma F2_len {A B} (R : A -> B -> Prop) l m : Forall2 R l m -> List.length l = List.length m.
Proof. induction 1; cbn; auto. Qed.

(** The lengths of the children, as Time.length() gives them. *)
Lemma children root p n k ls : node_at root p = Some n -> is_music (kind_of n) = true -> k <= List.length (kids_of n) ->
  (Forall2 (fun r x => r = Ok x) (firstn k (map (ctx_length (enter (context root p) n) (Some (kind_of n))) (kids_of n))) ls <-> child_lengths root p k ls).
Proof.
  intros N M L. unfold child_lengths.
  assert (E : firstn k (map (ctx_length (enter (context root p) n) (Some (kind_of n))) (kids_of n)) = map (fun i => length root (p ++ [i])) (seq 0 k)).
  { rewrite firstn_map. apply nth_ext with (d := Ok 0%Q) (d' := Ok 0%Q); [rewrite !map_length, firstn_length, seq_length; lia|]. intros i H. rewrite map_length, firstn_length in H.
    assert (i < k) by lia. destruct (nth_error (kids_of n) i) as [c|] eqn:C; [|apply nth_error_None in C; lia].
    rewrite (nth_indep _ _ (length root (p ++ [0]))) by (rewrite map_length, firstn_length; lia).
    assert (NF : nth_error (map (ctx_length (enter (context root p) n) (Some (kind_of n))) (firstn k (kids_of n))) i = Some (length root (p ++ [i]))).
    { rewrite nth_error_map. assert (nth_error (firstn k (kids_of n)) i = Some c) as ->.
      { rewrite <- C. clear -H0. revert i H0. generalize (kids_of n). induction k as [|k IH]; intros l i H; [lia|]. destruct l as [|x l]; [destruct i; reflexivity|]. destruct i; [reflexivity|]. cbn. apply IH. lia. }
      cbn. rewrite (length_child root p n i c N M C). reflexivity. }
    rewrite (nth_error_nth _ _ _ NF). rewrite (nth_indep _ (Ok 0%Q) ((fun i => length root (p ++ [i])) 0)) by (rewrite map_length, seq_length; lia).
    rewrite (map_nth (fun i => length root (p ++ [i]))). rewrite seq_nth by lia. reflexivity. }
  rewrite E. clear. split.
  - intros F. remember (map _ _) as r eqn:R. revert R. generalize (seq 0 k). induction F as [|r x l ls E F IH]; intros s R; destruct s as [|i s]; try discriminate; constructor; cbn in R; injection R as R1 R2; [rewrite <- R1; exact E|auto].
  - induction 1; cbn; constructor; auto.
Qed.

Lemma sequential_is root p n : node_at root p = Some n -> is_sequential (parent_kind root p) (kind_of n) = true <-> sequential root p.
Proof.
  intros N. unfold sequential. split.
  - intros S. exists n. split; [exact N|]. destruct (kind_of n) eqn:K; try discriminate. split; [reflexivity|]. intros q i m -> NM C. rewrite parent_snoc, NM in S. cbn [option_map] in S. rewrite C in S. discriminate.
  - intros (n' & N' & K & H). rewrite N in N'. injection N' as <-. rewrite K. cbn [is_sequential].
    destruct (parent_kind root p) as [[]|] eqn:P; try reflexivity. exfalso. revert P. clear K N. destruct p as [|i p _] using rev_ind; [discriminate|]. rewrite parent_snoc.
    destruct (node_at root p) as [m|] eqn:NM; [|discriminate]. cbn. intros [= E]. exact (H p i m eq_refl NM E).
Qed.
Lemma seq_music par k : is_sequential par k = true -> k = MusicList.
Proof. destruct k; cbn; try discriminate. reflexivity. Qed.

(** ** C65 *)
Lemma length_sequential root p n q : node_at root p = Some n -> sequential root p -> length_is root p q <->
  exists ls, child_lengths root p (List.length (kids_of n)) ls /\ (q == total ls)%Q.
Proof.
  intros N S. apply (sequential_is _ _ _ N) in S. pose proof (seq_music _ _ S) as K. assert (M : is_music (kind_of n) = true) by (rewrite K; reflexivity).
  assert (L : length root p = sum 0 (map (ctx_length (enter (context root p) n) (Some (kind_of n))) (kids_of n))).
  { rewrite (length_ctx _ _ _ N). destruct n as [k tr v kids]. rewrite ctx_length_eq. cbn [kind_of kids_of] in *. subst k. cbn [is_reference is_music time_length]. unfold music_time_length. rewrite S. reflexivity. }
  unfold length_is. rewrite L. pose proof (children root p n (List.length (kids_of n))) as C. split.
  - intros (r & E & R). destruct (sum_ok _ _ _ E) as (ls & F & Z). exists ls. split; [|rewrite <- R, Z; ring]. apply C; auto. rewrite firstn_all2 by (rewrite map_length; lia). exact F.
  - intros (ls & F & Z). apply C in F; auto. rewrite firstn_all2 in F by (rewrite map_length; lia). destruct (sum_total _ _ F 0%Q) as (r & -> & R). exists r. split; [reflexivity|]. rewrite R, Z. ring.
Qed.
Lemma largest_unique ls a b : largest ls a -> largest ls b -> (a == b)%Q.
Proof. destruct ls as [|x ls]; cbn; [intros -> ->; reflexivity|]. intros (A & A') (B & B'). apply Qle_antisym; auto. Qed.
Lemma length_together root p n q : node_at root p = Some n -> (together (kind_of n) = true \/ kind_of n = MusicList /\ ~ sequential root p \/ skip_music n) ->
  length root p = Ok q <-> exists ls, child_lengths root p (List.length (kids_of n)) ls /\ maximum None (map Ok ls) = Ok q.
Proof.
  intros N T. assert (M : is_music (kind_of n) = true) by (destruct T as [T|[(T & _)|((d & s & T) & _)]]; destruct (kind_of n); cbn in *; try reflexivity; discriminate).
  assert (S : is_sequential (parent_kind root p) (kind_of n) = false).
  { destruct T as [T|[(_ & T)|((d & s & T) & _)]]; [destruct (kind_of n); cbn in *; congruence| |rewrite T; reflexivity]. destruct (is_sequential _ _) eqn:E; [|reflexivity]. exfalso. apply T, (sequential_is _ _ _ N), E. }
  assert (L : length root p = maximum None (map (ctx_length (enter (context root p) n) (Some (kind_of n))) (kids_of n))).
  { rewrite (length_ctx _ _ _ N). destruct n as [k tr v kids]. rewrite ctx_length_eq. cbn [kind_of kids_of] in *.
    destruct T as [T|[(T & _)|((d & s & T) & ND)]].
    3: { cbn [kind_of kids_of] in *. subst k. cbn [is_reference is_music time_length]. assert (existsb (fun n => is_duration (kind_of n)) kids = false) as ->; [|reflexivity].
         destruct (existsb _ kids) eqn:X; [|reflexivity]. apply existsb_exists in X. destruct X as (c & X & Y). apply ND in X. destruct (kind_of c); cbn in Y; congruence. }
    all: destruct k; try discriminate; cbn [is_reference is_music time_length]; unfold music_time_length; rewrite S; reflexivity. }
  rewrite L. pose proof (children root p n (List.length (kids_of n))) as C.
  assert (X : forall (l : list (res Q)) ls, Forall2 (fun r x => r = Ok x) l ls -> l = map Ok ls) by (induction 1; cbn; congruence). split.
  - intros E. destruct (maximum_ok _ _ _ E) as (ls & F & _). exists ls. split; [apply C; auto; rewrite firstn_all2 by (rewrite map_length; lia); exact F|]. rewrite <- (X _ _ F). exact E.
  - intros (ls & F & Z). apply C in F; auto. rewrite firstn_all2 in F by (rewrite map_length; lia). rewrite (X _ _ F). exact Z.
Qed.
Lemma maximum_largest ls q : (exists r, maximum None (map Ok ls) = Ok r /\ (r == q)%Q) <-> exists m, largest ls m /\ (m == q)%Q.
Proof.
  assert (A : Forall2 (fun r x => r = Ok x) (map Ok ls) ls) by (induction ls; cbn; constructor; auto).
  assert (U : forall l1 l2, Forall2 (fun r x => r = @Ok Q x) (map Ok l1) l2 -> l1 = l2).
  { intros l1 l2. revert l2. induction l1 as [|x l1 IH]; intros l2 F; inversion F as [|? y ? l3 E F']; subst; [reflexivity|]. injection E as ->. f_equal. auto. }
  split.
  - intros (r & E & R). destruct (maximum_ok _ _ _ E) as (l' & F & Z). apply U in F. subst l'. exists r. split; [|exact R]. destruct ls; cbn; [subst r; reflexivity|exact Z].
  - intros (m & L & R). destruct (maximum_total _ _ A None) as (r & E). exists r. split; [exact E|]. destruct (maximum_ok _ _ _ E) as (l' & F & Z). apply U in F. subst l'.
    rewrite <- R. eapply largest_unique; [|exact L]. destruct ls; cbn; [subst r; reflexivity|exact Z].
Qed.

Lemma music_path_ancestors root p l : music_path root p l -> exists n, node_at root p = Some n /\ l = music_ancestors root (rev p) ++ [n].
Proof.
  induction 1 as [p n N T|p i n m l NP M MP (n' & N' & L) N].
  - exists n. split; [exact N|]. assert (music_ancestors root (rev p) = []) as ->; [|reflexivity]. destruct p as [|i p _] using rev_ind; [reflexivity|]. rewrite ancestors_snoc.
    destruct (node_at root p) as [m|] eqn:NM; [|reflexivity]. rewrite (T p i m eq_refl NM). reflexivity.
  - exists n. split; [exact N|]. rewrite NP in N'. injection N' as <-. rewrite ancestors_snoc, NP, M, L. reflexivity.
Qed.

Definition teq (a b : transform) : Prop := t_log a = t_log b /\ t_dotcount a = t_dotcount b /\ (t_scale a == t_scale b)%Q.
Lemma enter_all l : forall t, teq (fold_left enter l t) (Transform (t_log t + logs l) (t_dotcount t + dotcounts l) (t_scale t * scales l)%Q).
Proof.
  induction l as [|n l IH]; intros t; cbn [fold_left].
  - unfold teq. cbn. split; [lia|]. split; [lia|]. ring.
  - destruct (IH (enter t n)) as (A & B & C). cbn in A, B, C. unfold teq. rewrite A, B, C. cbn [t_log t_dotcount t_scale logs dotcounts scales fold_right]. fold (logs l). fold (dotcounts l). fold (scales l).
    unfold enter. destruct (transform_of n) as [u|]; [|split; [lia|]; split; [lia|]; reflexivity]. destruct (transform_bool u) eqn:TB.
    + unfold transform_add. cbn. split; [lia|]. split; [lia|]. ring.
    + unfold transform_bool in TB. rewrite !orb_false_iff, !negb_false_iff in TB. destruct TB as ((E1 & E2) & E3). apply Z.eqb_eq in E1. apply Z.eqb_eq in E2. apply Qeq_bool_iff in E3.
      rewrite E1, E2. split; [lia|]. split; [lia|]. rewrite E3. ring.
Qed.
Lemma transform_length_teq a b d s : teq a b -> same (transform_length a d s) (transform_length b d s).
Proof.
  intros (A & B & C). unfold transform_length, transform_apply. rewrite A, B. destruct (if negb (t_log b =? 0)%Z || negb (t_dotcount b =? 0)%Z then _ else _) as [x|e]; cbn [bindr same]; [|reflexivity]. rewrite C. reflexivity.
Qed.
Lemma length_durable root p n l d s : node_at root p = Some n -> has_duration n d s -> music_path root p l ->
  same (length root p) (transform_length (Transform (logs l) (dotcounts l) (scales l)) d s).
Proof.
  intros N K P. destruct (music_path_ancestors _ _ _ P) as (n' & N' & L). rewrite N in N'. injection N' as <-. rewrite (length_ctx _ _ _ N).
  assert (E : ctx_length (context root p) (parent_kind root p) n = transform_length (enter (context root p) n) d s).
  { destruct n as [k tr v kids]. unfold has_duration in K. cbn [kind_of kids_of] in K. destruct k; try contradiction; rewrite ctx_length_eq; cbn [is_reference is_music time_length].
    - destruct K as (-> & ->). reflexivity.
    - destruct K as (-> & ->). reflexivity.
    - destruct K as ((-> & ->) & body & x & B & X & N'). assert (existsb (fun body => existsb (fun n => is_note (kind_of n)) (kids_of body)) kids = true) as ->; [|reflexivity].
      apply existsb_exists. exists body. split; [exact B|]. apply existsb_exists. exists x. split; [exact X|]. destruct (kind_of x); try contradiction. reflexivity.
    - destruct K as ((-> & ->) & x & X & N'). assert (existsb (fun n => is_duration (kind_of n)) kids = true) as ->; [|reflexivity]. apply existsb_exists. exists x. split; [exact X|]. rewrite N'. reflexivity. }
  rewrite E. apply transform_length_teq. unfold context. change (enter (fold_left enter (music_ancestors root (rev p)) transform_default) n) with (fold_left enter [n] (fold_left enter (music_ancestors root (rev p)) transform_default)).
  rewrite <- fold_left_app, <- L. destruct (enter_all l transform_default) as (A & B & C). cbn in A, B, C. split; [exact A|]. split; [exact B|]. cbn. rewrite C. ring.
Qed.

Lemma length_after_grace root p n i c q : node_at root p = Some n -> kind_of n = AfterGrace -> nth_error (kids_of n) i = Some c -> is_music (kind_of c) = true ->
  (forall j d, j < i -> nth_error (kids_of n) j = Some d -> is_music (kind_of d) = false) -> length root p = Ok q <-> length root (p ++ [i]) = Ok q.
Proof.
  intros N K C M F. assert (MU : is_music (kind_of n) = true) by (rewrite K; reflexivity). rewrite (length_child _ _ _ _ _ N MU C), (length_ctx _ _ _ N).
  destruct n as [k tr v kids]. cbn [kind_of kids_of] in *. subst k. rewrite ctx_length_eq. cbn [is_reference is_music time_length upto].
  generalize (ctx_length (enter (context root p) (MN AfterGrace tr v kids)) (Some AfterGrace)). intros f. clear N. revert i C F. induction kids as [|x kids IH]; intros i C F; [destruct i; discriminate|]. cbn [map combine after_grace].
  destruct i as [|i]; [injection C as ->; rewrite M; reflexivity|]. rewrite (F 0 x) by (lia || reflexivity). apply (IH i); [exact C|]. intros j d L D. apply (F (S j) d); [lia|exact D].
Qed.

(** ** Induction over elements *)
Lemma mn_induction (P : mn -> Prop) : (forall k tr v kids, (forall m, v = Some m -> P m) -> (forall c, In c kids -> P c) -> P (MN k tr v kids)) -> forall n, P n.
Proof.
  intros H. fix rec 1. intros [k tr v kids]. apply H.
  - destruct v as [m|]; [intros m' [= <-]; apply rec|discriminate].
  - induction kids as [|c kids IH]; [intros c []|]. intros c' [<-|I]; [apply rec|exact (IH c' I)].
Qed.

(** ** Lengths are not negative *)
Lemma duration_nonneg l d q : Duration_Model.duration l d = Ok q -> (0 <= q)%Q.
Proof.
  unfold Duration_Model.duration. destruct ((d <? 0)%Z || (d + l + 3 <? 0)%Z) eqn:E; [discriminate|]. apply orb_false_iff in E. destruct E as (A & B). apply Z.ltb_ge in A. apply Z.ltb_ge in B.
  intros [= <-]. rewrite !Z.shiftl_mul_pow2 by lia. apply Qle_shift_div_l; [change 0%Q with (inject_Z 0); rewrite <- Zlt_Qlt; assert (0 < 2 ^ (d + l + 3))%Z by (apply Z.pow_pos_nonneg; lia); lia|].
  rewrite Qmult_0_l. change 0%Q with (inject_Z 0). rewrite <- Zle_Qle. assert (0 < 2 ^ d)%Z by (apply Z.pow_pos_nonneg; lia). destruct (2 * 2 ^ d - 1)%Z eqn:Z1; lia.
Qed.
Lemma transform_length_nonneg t d s q : (0 <= t_scale t)%Q -> (0 <= d)%Q -> (0 <= s)%Q -> transform_length t d s = Ok q -> (0 <= q)%Q.
Proof.
  intros T D S. unfold transform_length, transform_apply. destruct (negb (t_log t =? 0)%Z || negb (t_dotcount t =? 0)%Z).
  - destruct (shift_duration d (t_log t) (t_dotcount t)) as [x|e] eqn:E; cbn [bindr]; [|discriminate]. intros [= <-]. unfold shift_duration in E. destruct (log_dotcount d). apply duration_nonneg in E.
    repeat apply Qmult_le_0_compat; assumption.
  - cbn [bindr]. intros [= <-]. repeat apply Qmult_le_0_compat; assumption.
Qed.
Lemma enter_nonneg t n : (0 <= t_scale t)%Q -> nonneg n -> (0 <= t_scale (enter t n))%Q.
Proof. intros T N. unfold enter. destruct N as [k tr v kids _ TR _ _]. cbn [transform_of]. destruct tr as [u|]; [|exact T]. destruct (transform_bool u); [|exact T]. cbn. apply Qmult_le_0_compat; assumption. Qed.
Lemma sum_nonneg l : forall acc q, (0 <= acc)%Q -> (forall r, In (Ok r) l -> (0 <= r)%Q) -> sum acc l = Ok q -> (0 <= q)%Q.
Proof.
  induction l as [|[x|e] l IH]; intros acc q A H; cbn [sum bindr]; [intros [= <-]; exact A| |discriminate]. apply IH; [|intros r I; apply H; right; exact I].
  rewrite <- (Qplus_0_l 0). apply Qplus_le_compat; [exact A|apply H; left; reflexivity].
Qed.
Lemma F2_ok_in (l : list (res Q)) ls : Forall2 (fun r x => r = Ok x) l ls -> forall q, In q ls -> In (Ok q) l.
Proof. induction 1 as [|r y l m E F IH]; intros q I; [destruct I|]. destruct I as [<-|I]; [left; exact E|right; auto]. Qed.
Lemma maximum_nonneg l q : (forall r, In (Ok r) l -> (0 <= r)%Q) -> maximum None l = Ok q -> (0 <= q)%Q.
Proof.
  intros H E. destruct (maximum_ok _ _ _ E) as (ls & F & Z). destruct ls as [|x ls]; [subst q; apply Qle_refl|]. destruct Z as (Z & _). apply H. eapply F2_ok_in; eauto.
Qed.
Lemma firstn_in {A} k (l : list A) x : In x (firstn k l) -> In x l.
Proof. revert l. induction k; intros [|y l] H; try destruct H; [left; auto|right; auto]. Qed.
Lemma time_length_nonneg t par k kids lens e q :
  match k with Note d s | Durable d s | Chord d s | Skip d s => (0 <= d /\ 0 <= s)%Q | _ => True end ->
  (0 <= t_scale t)%Q -> (forall r, In (Ok r) lens -> (0 <= r)%Q) -> time_length t par k kids lens e = Ok q -> (0 <= q)%Q.
Proof.
  intros K T L. assert (U : forall r, In (Ok r) (upto e lens) -> (0 <= r)%Q). { intros r I. apply L. destruct e; [eapply firstn_in; exact I|exact I]. }
  assert (M : forall s, music_time_length s lens e = Ok q -> (0 <= q)%Q).
  { intros s. unfold music_time_length. destruct s; [intros E; eapply sum_nonneg; [apply Qle_refl|exact U|exact E]|]. destruct e; [intros [= <-]; apply Qle_refl|]. apply maximum_nonneg. exact L. }
  destruct k; cbn [time_length]; try apply M.
  - destruct K. apply transform_length_nonneg; assumption.
  - destruct K. apply transform_length_nonneg; assumption.
  - destruct K. destruct (existsb _ _); [apply transform_length_nonneg; assumption|intros [= <-]; apply Qle_refl].
  - destruct K. destruct (existsb _ _); [apply transform_length_nonneg; assumption|apply M].
  - clear M. assert (V : forall b r, In (b, Ok r) (upto e (combine (map (fun n => is_music (kind_of n)) kids) lens)) -> (0 <= r)%Q).
    { intros b r I. apply L. apply (in_combine_r (map (fun n => is_music (kind_of n)) kids) lens b (Ok r)). destruct e; [eapply firstn_in; exact I|exact I]. }
    revert V. generalize (upto e (combine (map (fun n => is_music (kind_of n)) kids) lens)). induction l as [|[b r] l IH]; intros V; cbn [after_grace]; [intros [= <-]; apply Qle_refl|].
    destruct b; [intros ->; apply (V true); left; reflexivity|]. apply IH. intros b x I. apply (V b). right. exact I.
Qed.
Lemma ctx_nonneg n : nonneg n -> forall t par q, (0 <= t_scale t)%Q -> ctx_length t par n = Ok q -> (0 <= q)%Q.
Proof.
  induction n as [k tr v kids IHv IHk] using mn_induction. intros NN t par q T. rewrite ctx_length_eq. pose proof (enter_nonneg _ _ T NN) as T'. inversion NN as [? ? ? ? K TR V C]; subst.
  destruct (is_reference k). { destruct v as [m|]; [|discriminate]. apply (IHv m eq_refl (V m eq_refl)). exact T. }
  destruct (is_music k); [|intros [= <-]; apply Qle_refl]. apply time_length_nonneg; [exact K|exact T'|].
  intros r I. apply in_map_iff in I. destruct I as (c & E & I). eapply IHk; eauto.
Qed.
Lemma nonneg_at root p : nonneg root -> forall n, node_at root p = Some n -> nonneg n.
Proof.
  revert root. induction p as [|i p IH]; intros root R n N; [injection N as <-; exact R|]. cbn in N. destruct (nth_error (kids_of root) i) as [c|] eqn:C; [|discriminate]. apply (IH c); [|exact N].
  apply nth_error_In in C. destruct R as [? ? ? ? _ _ _ K]. apply K. exact C.
Qed.
Lemma context_nonneg root p : nonneg root -> (0 <= t_scale (context root p))%Q.
Proof.
  intros R. induction p as [|i p IH] using rev_ind; [cbn; discriminate|]. unfold context. rewrite ancestors_snoc. destruct (node_at root p) as [n|] eqn:N; [|cbn; discriminate].
  destruct (is_music (kind_of n)); [|cbn; discriminate]. rewrite fold_left_app. cbn [fold_left]. apply enter_nonneg; [exact IH|eapply nonneg_at; eauto].
Qed.
Lemma length_nonneg root p q : nonneg root -> length root p = Ok q -> (0 <= q)%Q.
Proof.
  intros R E. destruct (node_at root p) as [n|] eqn:N; [|unfold length in E; rewrite N in E; discriminate]. rewrite (length_ctx _ _ _ N) in E.
  eapply ctx_nonneg; [eapply nonneg_at; eauto|apply context_nonneg; exact R|exact E].
Qed.

(** ** Lengths exist *)
Definition unshifted (t : transform) : Prop := t_log t = 0%Z /\ t_dotcount t = 0%Z.
Lemma enter_unshifted t n : unshifted t -> simple n -> unshifted (enter t n).
Proof.
  intros (A & B) S. destruct S as [k tr v kids TR _ _ _]. unfold enter. cbn [transform_of]. destruct tr as [u|]; [|split; assumption]. destruct (transform_bool u); [|split; assumption].
  destruct TR. unfold unshifted, transform_add. cbn. lia.
Qed.
Lemma transform_length_total t d s : unshifted t -> exists q, transform_length t d s = Ok q.
Proof. intros (A & B). unfold transform_length, transform_apply. rewrite A, B. cbn. eauto. Qed.
Lemma all_ok (l : list (res Q)) : (forall r, In r l -> exists q, r = Ok q) -> exists ls, Forall2 (fun r x => r = Ok x) l ls.
Proof. induction l as [|r l IH]; intros H; [exists []; constructor|]. destruct (H r (or_introl eq_refl)) as (q & ->). destruct IH as (ls & F); [intros r I; apply H; right; exact I|]. exists (q :: ls). constructor; auto. Qed.
Lemma time_length_total t par k kids lens e : unshifted t -> (forall r, In r lens -> exists q, r = Ok q) -> exists q, time_length t par k kids lens e = Ok q.
Proof.
  intros T L. assert (M : forall s, exists q, music_time_length s lens e = Ok q).
  { intros s. unfold music_time_length. destruct s.
    - destruct (all_ok (upto e lens)) as (ls & F); [intros r I; apply L; destruct e; [eapply firstn_in; exact I|exact I]|]. destruct (sum_total _ _ F 0%Q) as (q & E & _). eauto.
    - destruct e; [eauto|]. destruct (all_ok _ L) as (ls & F). apply (maximum_total _ _ F). }
  destruct k; cbn [time_length]; try apply M; try (apply transform_length_total; exact T).
  - destruct (existsb _ _); [apply transform_length_total; exact T|eauto].
  - destruct (existsb _ _); [apply transform_length_total; exact T|apply M].
  - assert (V : forall b r, In (b, r) (upto e (combine (map (fun n => is_music (kind_of n)) kids) lens)) -> exists q, r = Ok q).
    { intros b r I. apply L. apply (in_combine_r (map (fun n => is_music (kind_of n)) kids) lens b r). destruct e; [eapply firstn_in; exact I|exact I]. }
    revert V. generalize (upto e (combine (map (fun n => is_music (kind_of n)) kids) lens)). induction l as [|[b r] l IH]; intros V; cbn [after_grace]; [eauto|].
    destruct b; [apply (V true); left; reflexivity|]. apply IH. intros b x I. apply (V b). right. exact I.
Qed.
Lemma ctx_total n : simple n -> forall t par, unshifted t -> exists q, ctx_length t par n = Ok q.
Proof.
  induction n as [k tr v kids IHv IHk] using mn_induction. intros NN t par T. rewrite ctx_length_eq. pose proof (enter_unshifted _ _ T NN) as T'. inversion NN as [? ? ? ? TR R V C]; subst.
  destruct (is_reference k) eqn:RK. { destruct k; try discriminate. destruct v as [m|]; [|destruct (R eq_refl eq_refl)]. apply (IHv m eq_refl (V m eq_refl)). exact T. }
  destruct (is_music k); [|eauto]. apply time_length_total; [exact T'|].
  intros r I. apply in_map_iff in I. destruct I as (c & <- & I). apply IHk; auto.
Qed.
Lemma simple_at root p : simple root -> forall n, node_at root p = Some n -> simple n.
Proof.
  revert root. induction p as [|i p IH]; intros root R n N; [injection N as <-; exact R|]. cbn in N. destruct (nth_error (kids_of root) i) as [c|] eqn:C; [|discriminate]. apply (IH c); [|exact N].
  apply nth_error_In in C. destruct R as [? ? ? ? _ _ _ K]. apply K. exact C.
Qed.
Lemma context_unshifted root p : simple root -> unshifted (context root p).
Proof.
  intros R. induction p as [|i p IH] using rev_ind; [split; reflexivity|]. unfold context. rewrite ancestors_snoc. destruct (node_at root p) as [n|] eqn:N; [|split; reflexivity].
  destruct (is_music (kind_of n)); [|split; reflexivity]. rewrite fold_left_app. cbn [fold_left]. apply enter_unshifted; [exact IH|eapply simple_at; eauto].
Qed.
Lemma length_total root p n : simple root -> node_at root p = Some n -> exists q, length root p = Ok q.
Proof. intros R N. rewrite (length_ctx _ _ _ N). apply ctx_total; [eapply simple_at; eauto|apply context_unshifted; exact R]. Qed.
Lemma follow_total tr : forall n t par q c, simple n -> unshifted t -> node_at n tr = Some c -> exists r, follow_trail t par n q tr = Ok r.
Proof.
  induction tr as [|i tr IH]; intros n t par q c R T N; cbn [follow_trail]; [eauto|]. cbn in N. destruct (nth_error (kids_of n) i) as [d|] eqn:D; [|discriminate].
  assert (exists q', (if negb (i =? 0) && is_sequential par (kind_of n) then let! l := time_length (enter t n) par (kind_of n) (kids_of n) (map (ctx_length (enter t n) (Some (kind_of n))) (kids_of n)) (Some i) in Ok (q + l)%Q else Ok q) = Ok q') as (q' & ->).
  { destruct (negb (i =? 0) && is_sequential par (kind_of n)); [|eauto]. destruct (time_length_total (enter t n) par (kind_of n) (kids_of n) (map (ctx_length (enter t n) (Some (kind_of n))) (kids_of n)) (Some i)) as (l & ->); [apply enter_unshifted; assumption| |cbn; eauto].
    intros r I. apply in_map_iff in I. destruct I as (x & <- & I). apply ctx_total; [|apply enter_unshifted; assumption]. destruct R as [? ? ? ? _ _ _ K]. apply K. exact I. }
  cbn [bindr]. apply (IH d _ _ _ c); [|apply enter_unshifted; assumption|exact N]. apply nth_error_In in D. destruct R as [? ? ? ? _ _ _ K]. apply K. exact D.
Qed.
Lemma position_total root p n inc : simple root -> node_at root p = Some n -> exists m q, position root p inc = Ok (m, q).
Proof.
  intros R N. assert (F : exists m q, position root p false = Ok (m, q)).
  { unfold position. pose proof (follow_to root p n N) as F. pose proof (preceding_split root p) as SP. destruct (preceding_music root p) as [m tr]. cbn [fst snd] in SP. destruct F as (mm & NM & _). rewrite NM.
    subst p. rewrite node_at_app, NM in N. destruct (follow_total tr mm transform_default (parent_kind root m) 0%Q n) as ([[[t par] n'] q] & ->); [eapply simple_at; eauto|split; reflexivity|exact N|]. cbn. eauto. }
  destruct inc; [|exact F]. rewrite (position_include _ _ _ N). destruct F as (m & q & ->). destruct (length_total _ _ _ R N) as (l & ->). cbn. eauto.
Qed.

(** ** References *)
Lemma put_transform n i p v : kind_of (put n (i :: p) v) = kind_of n /\ transform_of (put n (i :: p) v) = transform_of n.
Proof. destruct n. split; reflexivity. Qed.
Lemma put_child n i p v c : nth_error (kids_of n) i = Some c -> nth_error (kids_of (put n (i :: p) v)) i = Some (put c p v).
Proof.
  destruct n as [k t o kids]. cbn [kids_of put]. intros C. assert (L : i < List.length kids) by (apply nth_error_Some; congruence).
  assert (skipn i kids = c :: skipn (S i) kids) as ->. { clear L. revert i C. induction kids as [|x kids IH]; intros [|i] C; try discriminate; cbn in *; [injection C as ->; reflexivity|]. apply IH. exact C. }
  rewrite nth_error_app2 by (rewrite firstn_length; lia). rewrite firstn_length, Nat.min_l by lia. rewrite Nat.sub_diag. reflexivity.
Qed.
Lemma put_at p : forall n v m, node_at n p = Some m -> node_at (put n p v) p = Some v.
Proof.
  induction p as [|i p IH]; intros n v m N; [reflexivity|]. cbn [node_at] in N. destruct (nth_error (kids_of n) i) as [c|] eqn:C; [|discriminate].
  cbn [node_at]. rewrite (put_child _ _ _ _ _ C). eapply IH; eauto.
Qed.
Lemma put_above q : forall n i r v m c, node_at n (q ++ i :: r) = Some c -> node_at n q = Some m -> exists m', node_at (put n (q ++ i :: r) v) q = Some m' /\ kind_of m' = kind_of m /\ transform_of m' = transform_of m.
Proof.
  induction q as [|j q IH]; intros n i r v m c N M.
  - cbn [node_at app] in *. injection M as <-. eexists. split; [reflexivity|]. apply put_transform.
  - cbn [app node_at] in *. destruct (nth_error (kids_of n) j) as [d|] eqn:D; [|discriminate]. rewrite (put_child _ _ _ _ _ D). eapply IH; eauto.
Qed.
Lemma context_put root v n : forall p r, node_at root (p ++ r) = Some n -> context (put root (p ++ r) v) p = context root p.
Proof.
  induction p as [|i p IH] using rev_ind; intros r N; [reflexivity|]. rewrite <- app_assoc in *. cbn [app] in *.
  destruct (node_at root p) as [m|] eqn:M. 2:{ rewrite node_at_app, M in N. discriminate. }
  destruct (put_above p root i r v m n N M) as (m' & M' & K & T). specialize (IH (i :: r) N).
  unfold context in *. rewrite !ancestors_snoc, M, M', K. destruct (is_music (kind_of m)); [|reflexivity]. rewrite !fold_left_app, IH. cbn [fold_left]. unfold enter. rewrite T. reflexivity.
Qed.
Lemma parent_put root v n p : node_at root p = Some n -> parent_kind (put root p v) p = parent_kind root p.
Proof.
  intros N. destruct p as [|i p _] using rev_ind; [reflexivity|]. rewrite !parent_snoc. destruct (node_at root p) as [m|] eqn:M. 2:{ rewrite node_at_app, M in N. discriminate. }
  destruct (put_above p root i [] v m n N M) as (m' & -> & K & T). cbn. rewrite K. reflexivity.
Qed.
Lemma ctx_parent t a b n : (kind_of n = MusicList -> a <> Some Simultaneous /\ b <> Some Simultaneous) -> ctx_length t a n = ctx_length t b n.
Proof.
  destruct n as [k tr v kids]. cbn [kind_of]. intros H. rewrite !ctx_length_eq. destruct (is_reference k); [reflexivity|]. destruct (is_music k) eqn:M; [|reflexivity].
  assert (E : is_sequential a k = is_sequential b k). { destruct k; try reflexivity. destruct (H eq_refl) as (A & B). destruct a as [[]|], b as [[]|]; try reflexivity; congruence. }
  destruct k; cbn [time_length]; try reflexivity; rewrite E; reflexivity.
Qed.
Lemma length_reference root p n v : node_at root p = Some n -> kind_of n = Reference -> value_of n = Some v ->
  (forall q i m, p = q ++ [i] -> node_at root q = Some m -> kind_of m <> Simultaneous) ->
  length root p = length (put root p v) p.
Proof.
  intros N K V S. rewrite (length_ctx _ _ _ N), (length_ctx _ _ _ (put_at _ _ v _ N)). rewrite (parent_put _ _ _ _ N).
  pose proof (context_put root v n p []) as C. rewrite app_nil_r in C. rewrite (C N). destruct n as [k tr o kids]. cbn [kind_of value_of] in K, V. subst k o. rewrite ctx_length_eq. cbn [is_reference].
  apply ctx_parent. intros _. split; [discriminate|]. destruct p as [|i p _] using rev_ind; [discriminate|]. rewrite parent_snoc. destruct (node_at root p) as [m|] eqn:M; [|discriminate].
  cbn. intros [= E]. exact (S p i m eq_refl M E).
Qed.

(** ** C66 *)
Lemma position_same root p n i c : node_at root p = Some n -> is_music (kind_of n) = true -> nth_error (kids_of n) i = Some c ->
  i = 0 \/ is_sequential (parent_kind root p) (kind_of n) = false -> position root (p ++ [i]) false = position root p false.
Proof.
  intros N M C H. rewrite (position_child _ _ _ _ _ N M C). assert (negb (i =? 0) && is_sequential (parent_kind root p) (kind_of n) = false) as ->.
  { destruct H as [->| ->]; [reflexivity|apply andb_false_r]. }
  destruct (position root p false) as [[m q]|e]; reflexivity.
Qed.
Lemma firstn_S_nth {A} i (l : list A) x : nth_error l i = Some x -> firstn (S i) l = firstn i l ++ [x].
Proof. revert l. induction i as [|i IH]; intros [|y l] H; try discriminate; cbn in *; [injection H as ->; reflexivity|]. rewrite <- (IH l H). destruct l; reflexivity. Qed.
Lemma position_next root p n i m q l : node_at root p = Some n -> sequential root p -> S i < List.length (kids_of n) ->
  position_is root (p ++ [i]) false m q -> length_is root (p ++ [i]) l -> position_is root (p ++ [S i]) false m (q + l)%Q.
Proof.
  intros N S L (r & P & R) (x & LE & X). apply (sequential_is _ _ _ N) in S. pose proof (seq_music _ _ S) as K. assert (M : is_music (kind_of n) = true) by (rewrite K; reflexivity).
  destruct (nth_error (kids_of n) i) as [c|] eqn:C; [|apply nth_error_None in C; lia]. destruct (nth_error (kids_of n) (Datatypes.S i)) as [c'|] eqn:C'; [|apply nth_error_None in C'; lia].
  rewrite (position_child _ _ _ _ _ N M C) in P. unfold position_is. rewrite (position_child _ _ _ _ _ N M C'). rewrite (length_child _ _ _ _ _ N M C) in LE.
  destruct (position root p false) as [[m0 q0]|e]; [|discriminate]. cbn [bindr] in *. rewrite S in *. rewrite K in *. cbn [time_length negb andb Nat.eqb] in *. rewrite S in *. unfold music_time_length in *. cbn [upto] in *.
  rewrite (firstn_S_nth i _ (Ok x)); [|rewrite nth_error_map, C; cbn; rewrite LE; reflexivity]. rewrite sum_app.
  destruct i as [|i].
  - cbn [negb Nat.eqb andb bindr] in P. injection P as <- <-. cbn [firstn sum bindr]. eexists. split; [reflexivity|]. rewrite R, X. ring.
  - cbn [negb Nat.eqb andb bindr] in P. destruct (sum 0 (firstn (Datatypes.S i) _)) as [y|e]; [|discriminate]. cbn [bindr sum] in *. injection P as <- <-. eexists. split; [reflexivity|]. rewrite <- R, X. ring.
Qed.
Lemma total_acc l : forall z : Q, (fold_right Qplus z l == fold_right Qplus 0 l + z)%Q.
Proof. induction l as [|y l G]; intros z; cbn [fold_right]; [ring|]. rewrite (G z). apply Qplus_assoc. Qed.
Lemma position_nth root p n i ls m q : node_at root p = Some n -> sequential root p -> i < List.length (kids_of n) ->
  position_is root p false m q -> child_lengths root p i ls -> position_is root (p ++ [i]) false m (q + total ls)%Q.
Proof.
  intros N S. revert ls. induction i as [|i IH]; intros ls L P F.
  - unfold child_lengths in F. inversion F; subst. destruct P as (r & P & R). exists r. split; [|rewrite R; cbn; ring].
    destruct (nth_error (kids_of n) 0) as [c|] eqn:C; [|apply nth_error_None in C; lia].
    assert (M : is_music (kind_of n) = true). { apply (sequential_is _ _ _ N) in S. rewrite (seq_music _ _ S). reflexivity. }
    rewrite (position_same _ _ _ _ _ N M C); auto.
  - unfold child_lengths in F. rewrite seq_S in F. apply Forall2_app_inv_l in F. destruct F as (l1 & l2 & F1 & F2 & ->). cbn [plus] in F2. inversion F2 as [|? x ? l3 X F3]; subst. inversion F3; subst.
    assert (position_is root (p ++ [i]) false m (q + total l1)%Q) as P1 by (apply IH; auto; lia).
    destruct (position_next root p n i m (q + total l1)%Q x N S L P1) as (r & E & R); [exists x; split; [exact X|reflexivity]|]. exists r. split; [exact E|]. rewrite R.
    unfold total. rewrite fold_right_app. cbn [fold_right]. rewrite (total_acc l1 (x + 0)%Q). generalize (fold_right Qplus 0%Q l1). intros u. ring.
Qed.

(** ** C67 *)
Lemma common_spec a : forall t par n b, (exists x, node_at n a = Some x) -> exists t0 t' par' n' a' b' c,
  common t par n a b = Ok (t', par', n', a', b') /\ a = c ++ a' /\ b = c ++ b' /\ node_at n c = Some n' /\
  ((t' = t0 /\ (a' = [] \/ b' = [])) \/ (t' = enter t0 n' /\ exists i j x y, a' = i :: x /\ b' = j :: y /\ i <> j)) /\
  (forall q T PAR N Q, follow_trail t par n q c = Ok (T, PAR, N, Q) -> T = t0 /\ PAR = par' /\ N = n').
Proof.
  induction a as [|i a IH]; intros t par n b (x & E).
  - exists t, t, par, n, [], b, []. repeat (split; [reflexivity|]). split; [left; auto|]. cbn. intros q T PAR N Q [= -> -> -> _]. auto.
  - destruct b as [|j b].
    + exists t, t, par, n, (i :: a), [], []. repeat (split; [reflexivity|]). split; [left; auto|]. cbn. intros q T PAR N Q [= -> -> -> _]. auto.
    + cbn [common]. destruct (i =? j) eqn:IJ; cbn [negb].
      * apply Nat.eqb_eq in IJ. subst j. cbn [node_at] in E. destruct (nth_error (kids_of n) i) as [d|] eqn:D; [|discriminate].
        destruct (IH (enter t n) (Some (kind_of n)) d b (ex_intro _ x E)) as (t0 & t' & par' & n' & a' & b' & c & H1 & -> & -> & H4 & H5 & H6).
        exists t0, t', par', n', a', b', (i :: c). split; [exact H1|]. split; [reflexivity|]. split; [reflexivity|]. split; [cbn [node_at]; rewrite D; exact H4|]. split; [exact H5|].
        intros q T PAR N Q. cbn [follow_trail]. rewrite D. destruct (if negb (i =? 0) && is_sequential par (kind_of n) then _ else _) as [q1|e]; cbn [bindr]; [|discriminate]. apply H6.
      * apply Nat.eqb_neq in IJ. exists t, (enter t n), par, n, (i :: a), (j :: b), []. repeat (split; [reflexivity|]). split; [right; split; [reflexivity|]; exists i, j, a, b; auto|].
        cbn. intros q T PAR N Q [= -> -> -> _]. auto.
Qed.
Lemma list_eqb_true a b : list_eqb a b = true <-> a = b.
Proof. unfold list_eqb. destruct (list_eq_dec Nat.eq_dec a b); split; congruence. Qed.
Lemma position_music root p inc m q : position root p inc = Ok (m, q) -> m = fst (preceding_music root p).
Proof.
  unfold position. destruct (preceding_music root p) as [m' tr]. cbn [fst]. destruct (node_at root m') as [mm|]; [|discriminate].
  destruct (follow_trail _ _ _ _ _) as [[[[t par] n] q']|e]; cbn [bindr]; [|discriminate]. destruct inc; [|intros [= -> _]; reflexivity].
  destruct (ctx_length _ _ _); cbn [bindr]; [intros [= -> _]; reflexivity|discriminate].
Qed.
Lemma duration_none root a b ma mb qa qb : position root a false = Ok (ma, qa) -> position root b true = Ok (mb, qb) -> ma <> mb -> duration root a b = Ok None.
Proof.
  intros A B D. apply position_music in A. apply position_music in B. unfold duration. destruct (preceding_music root a) as [m tr]. destruct (preceding_music root b) as [m' tr']. cbn [fst] in *. subst ma mb.
  assert (list_eqb m' m = false) as ->; [|reflexivity]. destruct (list_eqb m' m) eqn:E; [|reflexivity]. apply list_eqb_true in E. congruence.
Qed.
Lemma enter_none t n : transform_of n = None -> enter t n = t.
Proof. unfold enter. intros ->. reflexivity. Qed.
Lemma duration_some root a b m qa qb na nb : node_at root a = Some na -> node_at root b = Some nb -> plain_divergence root a b ->
  position root a false = Ok (m, qa) -> position root b true = Ok (m, qb) -> duration_is root a b m (qb - qa)%Q.
Proof.
  intros NA NB PD A B. pose proof (position_music _ _ _ _ _ A) as MA. pose proof (position_music _ _ _ _ _ B) as MB. unfold duration_is, duration. unfold position in A, B.
  pose proof (preceding_split root a) as SA. pose proof (preceding_split root b) as SB.
  destruct (preceding_music root a) as [m1 ta]. destruct (preceding_music root b) as [m2 tb]. cbn [fst snd] in *. subst m1 m2.
  assert (list_eqb m m = true) as -> by (apply list_eqb_true; reflexivity). cbn [negb]. destruct (node_at root m) as [mm|] eqn:NM; [|discriminate].
  assert (NTA : node_at mm ta = Some na) by (rewrite SA, node_at_app, NM in NA; exact NA).
  destruct (common_spec ta transform_default (parent_kind root m) mm tb (ex_intro _ na NTA)) as (t0 & t' & par' & n' & a' & b' & c & -> & -> & -> & NC & T & F). cbn [bindr].
  rewrite follow_app in A, B. destruct (follow_trail transform_default (parent_kind root m) mm 0 c) as [[[[tc pc] nc] qc]|e] eqn:FC; [|discriminate]. cbn [bindr] in A, B.
  destruct (F _ _ _ _ _ FC) as (-> & -> & ->).
  assert (t' = t0) as ->. { destruct T as [(-> & _)|(-> & i & j & x & y & -> & -> & D)]; [reflexivity|]. apply enter_none. apply (PD (m ++ c) i j x y); [rewrite SA, app_assoc; reflexivity|rewrite SB, app_assoc; reflexivity|exact D|]. rewrite node_at_app, NM. exact NC. }
  destruct (follow_offset a' t0 par' n' qc 0%Q) as [(e & E1 & E2)|(t1 & p1 & n1 & r0 & r1 & E1 & E2 & E3)]; rewrite E1 in A; cbn [bindr] in A; [discriminate|]. rewrite E2. cbn [bindr]. injection A as <-.
  destruct (follow_offset b' t0 par' n' qc 0%Q) as [(e & G1 & G2)|(t2 & p2 & n2 & s0 & s1 & G1 & G2 & G3)]; rewrite G1 in B; cbn [bindr] in B; [discriminate|]. rewrite G2. cbn [bindr].
  destruct (ctx_length t2 p2 n2) as [l|e]; cbn [bindr] in *; [|discriminate]. injection B as <-. eexists. split; [reflexivity|]. lra.
Qed.

(** ** The node that is meant *)
Lemma prefix_refl p : prefix p p. Proof. exists []. rewrite app_nil_r. reflexivity. Qed.
Lemma prefix_snoc c p i : prefix c (p ++ [i]) -> c = p ++ [i] \/ prefix c p.
Proof. intros (r & E). destruct r as [|x r _] using rev_ind; [left; rewrite app_nil_r in E; auto|]. rewrite app_assoc in E. apply app_inj_tail in E. destruct E as (E & _). right. exists r. exact E. Qed.
Lemma snoc_prefix c p i : prefix c p -> prefix c (p ++ [i]).
Proof. intros (r & ->). exists (r ++ [i]). rewrite app_assoc. reflexivity. Qed.
Lemma prefix_node root c p n : prefix c p -> node_at root p = Some n -> exists m, node_at root c = Some m.
Proof. intros (r & ->). rewrite node_at_app. destruct (node_at root c) as [m|]; [eauto|discriminate]. Qed.

Lemma chord_snoc root p i : nearest_chord root (rev (p ++ [i])) =
  match node_at root p with Some n => if is_chord (kind_of n) then Some p else nearest_chord root (rev p) | None => None end.
Proof. rewrite rev_app_distr. cbn [rev app nearest_chord]. rewrite rev_involutive. reflexivity. Qed.
Lemma nearest_chord_spec root p n : node_at root p = Some n ->
  match nearest_chord root (rev p) with
  | Some c => prefix c p /\ c <> p /\ (exists m, node_at root c = Some m /\ is_chord (kind_of m) = true) /\
      (forall q m, prefix q p -> q <> p -> node_at root q = Some m -> is_chord (kind_of m) = true -> prefix q c)
  | None => forall q m, prefix q p -> q <> p -> node_at root q = Some m -> is_chord (kind_of m) = false
  end.
Proof.
  revert n. induction p as [|i p IH] using rev_ind; intros n N.
  - cbn. intros q m (r & E) D. destruct q; [congruence|discriminate].
  - rewrite chord_snoc. rewrite node_at_app in N. destruct (node_at root p) as [m|] eqn:M; [|discriminate]. clear N. specialize (IH m eq_refl).
    assert (NE : forall c, prefix c p -> c <> p ++ [i]). { intros c (r & E) ->. apply (f_equal (@List.length nat)) in E. rewrite !app_length in E. cbn in E. lia. }
    destruct (is_chord (kind_of m)) eqn:C.
    + split; [apply snoc_prefix, prefix_refl|]. split; [apply NE, prefix_refl|]. split; [eauto|]. intros q m' Q D _ _. destruct (prefix_snoc _ _ _ Q); [congruence|assumption].
    + destruct (nearest_chord root (rev p)) as [c|].
      * destruct IH as (A & B & (m' & A' & B') & D). split; [apply snoc_prefix; exact A|]. split; [apply NE; exact A|]. split; [eauto|]. intros q m'' Q E NQ CQ. destruct (prefix_snoc _ _ _ Q) as [?|Q']; [congruence|].
        apply (D q m''); auto. intros ->. congruence.
      * intros q m'' Q E NQ. destruct (prefix_snoc _ _ _ Q) as [?|Q']; [congruence|]. destruct (list_eq_dec Nat.eq_dec q p) as [->|NP]; [congruence|]. apply (IH q m''); auto.
Qed.
Lemma nearest_music_spec root p n : node_at root p = Some n ->
  match nearest_music root (rev p) with
  | Some c => prefix c p /\ musical root c /\ (forall q, prefix q p -> musical root q -> prefix q c)
  | None => forall q, prefix q p -> ~ musical root q
  end.
Proof.
  revert n. induction p as [|i p IH] using rev_ind; intros n N.
  - cbn. injection N as <-. destruct (is_music (kind_of root)) eqn:M.
    + split; [apply prefix_refl|]. split; [left; exists root; split; [reflexivity|exact M]|]. auto.
    + intros q (r & E). destruct q; [|discriminate]. intros [(m & [= <-] & X)|(q & i & m & E' & _)]; [congruence|destruct q; discriminate].
  - assert (NP := N). rewrite node_at_app in NP. destruct (node_at root p) as [m|] eqn:M; [|discriminate]. clear NP. specialize (IH m eq_refl).
    rewrite rev_app_distr. cbn [rev app nearest_music]. rewrite rev_involutive, N, M.
    destruct (is_music (kind_of n)) eqn:MN.
    { split; [apply prefix_refl|]. split; [left; eauto|]. auto. }
    destruct (is_music (kind_of m)) eqn:MM.
    { split; [apply prefix_refl|]. split; [right; exists p, i, m; auto|]. auto. }
    assert (NM : ~ musical root (p ++ [i])). { intros [(m' & E & X)|(q & j & m' & E & NQ & X)]; [congruence|]. apply app_inj_tail in E. destruct E as (<- & _). congruence. }
    destruct (nearest_music root (rev p)) as [c|].
    + destruct IH as (A & B & D). split; [apply snoc_prefix; exact A|]. split; [exact B|]. intros q Q MQ. destruct (prefix_snoc _ _ _ Q) as [->|Q']; [contradiction|auto].
    + intros q Q MQ. destruct (prefix_snoc _ _ _ Q) as [->|Q']; [contradiction|]. exact (IH q Q' MQ).
Qed.

Lemma music_child_spec root p n : node_at root p = Some n ->
  match music_child root p with
  | Some c => prefix c p /\ (musical root c \/ exists m, node_at root c = Some m /\ is_chord (kind_of m) = true) /\
      (forall q m, prefix q p -> node_at root q = Some m -> is_chord (kind_of m) = true -> prefix q c) /\
      ((forall q m, prefix q p -> node_at root q = Some m -> is_chord (kind_of m) = false) -> forall q, prefix q p -> musical root q -> prefix q c) /\
      (forall m, (exists q, prefix q p /\ node_at root q = Some m /\ is_chord (kind_of m) = true) -> exists m', node_at root c = Some m' /\ is_chord (kind_of m') = true)
  | None => forall q, prefix q p -> ~ musical root q
  end.
Proof.
  intros N. unfold music_child. rewrite N. destruct (is_chord (kind_of n)) eqn:C.
  - split; [apply prefix_refl|]. split; [right; eauto|]. split; [auto|]. split; [auto|]. intros m _. eauto.
  - pose proof (nearest_chord_spec root p n N) as H. destruct (nearest_chord root (rev p)) as [c|].
    + destruct H as (A & B & D & E). split; [exact A|]. split; [right; exact D|]. split; [intros q m Q NQ CQ; apply (E q m); auto; intros ->; congruence|]. split; [|intros m _; exact D].
      intros H. destruct D as (m & D1 & D2). rewrite (H c m A D1) in D2. discriminate.
    + pose proof (nearest_music_spec root p n N) as K. assert (NC : forall q m, prefix q p -> node_at root q = Some m -> is_chord (kind_of m) = true -> False).
      { intros q m Q NQ CQ. destruct (list_eq_dec Nat.eq_dec q p) as [->|D]; [congruence|]. rewrite (H q m Q D NQ) in CQ. discriminate. }
      destruct (nearest_music root (rev p)) as [c|]; [|exact K].
      destruct K as (A & B & D). split; [exact A|]. split; [left; exact B|]. split; [intros q m Q NQ CQ; exfalso; eauto|]. split; [intros _; exact D|]. intros m (q & Q & NQ & CQ). exfalso. eauto.
Qed.

(** ** The topmost music *)
Lemma topmost root p inc m q : position root p inc = Ok (m, q) -> prefix m p /\
  (forall a n, prefix m a -> prefix a p -> a <> p -> node_at root a = Some n -> is_music (kind_of n) = true) /\
  (forall a i n, m = a ++ [i] -> node_at root a = Some n -> is_music (kind_of n) = false).
Proof.
  intros E. apply position_music in E. subst m. clear q. split; [exists (snd (preceding_music root p)); apply preceding_split|].
  assert (PA : forall a b : list nat, prefix a b -> prefix b a -> a = b). { intros a b (r & ->) (r' & E). apply (f_equal (@List.length nat)) in E. rewrite !app_length in E. destruct r; [rewrite app_nil_r; reflexivity|cbn in E; lia]. }
  induction p as [|i p IH] using rev_ind.
  - cbn. split; [intros a n (r & _) (r' & E) D; destruct a; [congruence|discriminate]|]. intros a i n E. destruct a; discriminate.
  - rewrite preceding_snoc. destruct (node_at root p) as [n|] eqn:N.
    + destruct (is_music (kind_of n)) eqn:M.
      * destruct (preceding_music root p) as [m tr]. cbn [fst] in *. destruct IH as (IH1 & IH2). split; [|exact IH2]. intros a n' P1 P2 D NA. destruct (prefix_snoc _ _ _ P2) as [?|P3]; [congruence|].
        destruct (list_eq_dec Nat.eq_dec a p) as [->|D']; [congruence|]. eapply IH1; eauto.
      * cbn [fst]. split; [intros a n' P1 P2 D; exfalso; apply D, PA; assumption|]. intros a j n' E NA. apply app_inj_tail in E. destruct E as (<- & _). congruence.
    + cbn [fst]. split; [intros a n' P1 P2 D; exfalso; apply D, PA; assumption|]. intros a j n' E NA. apply app_inj_tail in E. destruct E as (<- & _). congruence.
Qed.
