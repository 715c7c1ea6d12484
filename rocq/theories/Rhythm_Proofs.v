(** Editing the tree is editing the list of durables. *)
From Coq Require Import List ZArith QArith Bool Lia.
From Verif Require Import Base Duration_Model Rhythm_Model Rhythm_Spec.
Import ListNotations.
Open Scope nat_scope.

Fixpoint rn_ind2 (P : rn -> Prop) (H : forall k b d kids, Forall P kids -> P (RN k b d kids)) (n : rn) : P n :=
  match n with
  | RN k b d kids => H k b d kids ((fix go l : Forall P l := match l with [] => Forall_nil _ | c :: r => Forall_cons _ (rn_ind2 P H c) (go r) end) kids)
  end.

Fixpoint flats (inr : list nat -> bool) (path : list nat) (i : nat) (l : list rn) : list item :=
  match l with [] => [] | c :: r => durables inr (path ++ [i]) (hd_error r) c ++ flats inr path (S i) r end.
Fixpoint bwds (l : list rn) : list rn := match l with [] => [] | c :: r => bwds r ++ bwd c end.
Fixpoint visits {S} (f : process S) inr path (i : nat) (before : list rn) (st : S) (l : list rn) : res (S * list rn) :=
  match l with
  | [] => Ok (st, [])
  | c :: r =>
      let! (st, c) := visit f inr (path ++ [i]) (hd_error r) before st c in
      let! (st, r) := visits f inr path (Datatypes.S i) (bwd c ++ before) st r in
      Ok (st, c :: r)
  end.
Fixpoint oks (inr : list nat -> bool) (path : list nat) (i : nat) (l : list rn) : Prop :=
  match l with [] => True | c :: r => outside_ok inr (path ++ [i]) c /\ oks inr path (S i) r end.

Lemma durables_eq inr path right k b d kids : durables inr path right (RN k b d kids) =
  (if is_durable k then [Item (inr path) k (removable right (RN k b d kids)) b d] else []) ++ flats inr path 0 kids.
Proof.
  cbn [durables]. f_equal. generalize 0. induction kids as [|c r IH]; intros i; [reflexivity|]. cbn [flats]. f_equal. apply IH.
Qed.
Lemma bwd_eq k b d kids : bwd (RN k b d kids) = RN k b d kids :: bwds kids.
Proof. reflexivity. Qed.
Lemma visit_eq {S} (f : process S) inr path right before st k b d kids : visit f inr path right before st (RN k b d kids) =
  let! (st, durs) := (if inr path then f right before (RN k b d kids) st else Ok (st, d)) in
  let! (st, kids) := visits f inr path 0 before st kids in Ok (st, RN k b durs kids).
Proof.
  cbn [visit]. destruct (if inr path then f right before (RN k b d kids) st else Ok (st, d)) as [[s d1]|]; cbn [bindr]; [|reflexivity].
  match goal with |- bindr ?a _ = bindr ?b _ => assert (a = b) as ->; [|reflexivity] end.
  clear. revert before s. generalize 0. induction kids as [|c r IH]; intros i before s; [reflexivity|]. cbn [visits].
  destruct (visit f inr (path ++ [i]) (hd_error r) before s c) as [[s1 c']|]; cbn [bindr]; [|reflexivity]. rewrite IH. reflexivity.
Qed.
Lemma ok_eq inr path k b d kids : outside_ok inr path (RN k b d kids) <->
  ((inr path = false -> sets_previous k = true -> d <> [] -> Forall (fun x => i_sel x = false /\ i_durs x = []) (flats inr path 0 kids)) /\ oks inr path 0 kids).
Proof.
  cbn [outside_ok].
  match goal with |- (_ -> _ -> _ -> Forall _ ?a) /\ ?b <-> (_ -> _ -> _ -> Forall _ ?c) /\ ?e => assert (EA : a = c); [|assert (EB : b <-> e); [|rewrite EA; tauto]] end.
  - generalize 0. induction kids as [|c r IH]; intros i; [reflexivity|]. cbn [flats]. f_equal. apply IH.
  - clear EA. generalize 0. induction kids as [|c r IH]; intros i; [reflexivity|]. cbn [oks]. rewrite (IH (S i)). reflexivity.
Qed.

(** ** The kind of a durable does not depend on durations *)
Lemma existsb_bare (p : kind -> bool) l : existsb (fun c => p (kind_of c)) (map bare l) = existsb (fun c => p (kind_of c)) l.
Proof. induction l as [|[k b d c] l IH]; [reflexivity|]. cbn. f_equal. exact IH. Qed.
Lemma duration_only_bare n : duration_only (bare n) = duration_only n.
Proof.
  destruct n as [k b d kids]. destruct k; try reflexivity. cbn. induction kids as [|[k b' d' c] l IH]; [reflexivity|]. cbn. f_equal. exact IH.
Qed.
Lemma removable_bare r n r' n' : option_map bare r = option_map bare r' -> bare n = bare n' -> removable r n = removable r' n'.
Proof.
  intros R N. unfold removable.
  assert (D : duration_only n = duration_only n') by (rewrite <- duration_only_bare, N; apply duration_only_bare).
  assert (K : kind_of n = kind_of n'). { destruct n, n'. cbn in N. injection N. auto. }
  assert (E : existsb (fun c => is_art (kind_of c)) (kids_of n) = existsb (fun c => is_art (kind_of c)) (kids_of n')).
  { destruct n as [k b d c], n' as [k' b' d' c']. cbn in N. injection N as _ _ _ N. cbn [kids_of]. rewrite <- (existsb_bare is_art c), N. apply existsb_bare. }
  rewrite D, K, E. f_equal. f_equal. destruct r as [m|], r' as [m'|]; try discriminate; [|reflexivity].
  cbn in R. injection R as R. rewrite <- (duration_only_bare m), R, duration_only_bare. reflexivity.
Qed.
Lemma may_remove_removable r n : is_durable (kind_of n) = true -> may_remove r n = removable r n.
Proof.
  assert (F : forall c, forallb (fun c => negb (is_text (kind_of c))) c = negb (existsb (fun c => is_text (kind_of c)) c)).
  { induction c as [|x c IH]; [reflexivity|]. cbn. rewrite IH. destruct (is_text (kind_of x)); reflexivity. }
  assert (G : forall m, match kind_of m with KUnpitched => false | KLyricItem => negb (duration_required m) | _ => true end = negb (duration_only m)).
  { intros [k b d c]. destruct k; try reflexivity. cbn. rewrite F. reflexivity. }
  intros D. unfold may_remove, removable.
  assert (Q : duration_required n = is_skip (kind_of n) || duration_only n).
  { destruct n as [k b d c]. destruct k; try reflexivity. cbn. rewrite F. reflexivity. }
  rewrite Q. destruct (is_skip (kind_of n)); [reflexivity|]. destruct (duration_only n); [reflexivity|]. cbn [orb negb andb].
  destruct (existsb _ (kids_of n)); [reflexivity|]. cbn [orb]. destruct r as [m|]; [apply G|reflexivity].
Qed.

(** ** Lists of durables *)
Definition with_durs (x : item) (d : list dnode) : item := Item (i_sel x) (i_kind x) (i_free x) (i_blk x) d.
Definition step (last : option (Q * Q)) (x : item) : option (Q * Q) :=
  if sets_previous (i_kind x) then match written x with Some d => Some d | None => last end else last.
Definition lasts (last : option (Q * Q)) (l : list item) : option (Q * Q) := fold_left step l last.
Definition iprocess S := option (Q * Q) -> item -> S -> res (S * list dnode).
Fixpoint run {S} (g : iprocess S) (last : option (Q * Q)) (st : S) (l : list item) : res (S * list item) :=
  match l with
  | [] => Ok (st, [])
  | x :: r =>
      let! (st, d) := (if i_sel x then g last x st else Ok (st, i_durs x)) in
      let! (st, r) := run g (step last (with_durs x d)) st r in
      Ok (st, with_durs x d :: r)
  end.

Lemma with_same x : with_durs x (i_durs x) = x.
Proof. destruct x. reflexivity. Qed.
Lemma lasts_app l a b : lasts l (a ++ b) = lasts (lasts l a) b.
Proof. apply fold_left_app. Qed.
Lemma lasts_none l items : lasts l items = match lasts None items with Some d => Some d | None => l end.
Proof.
  revert l. induction items as [|x r IH] using rev_ind; intros l; [reflexivity|].
  rewrite !lasts_app. cbn [lasts fold_left]. unfold lasts in *. cbn [fold_left]. rewrite (IH l). unfold step. destruct (sets_previous (i_kind x)); [|reflexivity].
  destruct (written x); reflexivity.
Qed.
Lemma run_app {S} (g : iprocess S) a : forall last st b, run g last st (a ++ b) =
  let! (st, a') := run g last st a in let! (st, b') := run g (lasts last a') st b in Ok (st, a' ++ b').
Proof.
  induction a as [|x a IH]; intros last st b; cbn [app run bindr].
  - change (lasts last []) with last. destruct (run g last st b) as [[s r]|]; reflexivity.
  - destruct (if i_sel x then g last x st else Ok (st, i_durs x)) as [[s d]|]; cbn [bindr]; [|reflexivity].
    rewrite IH. destruct (run g (step last (with_durs x d)) s a) as [[s' a']|]; cbn [bindr]; [|reflexivity].
    cbn [lasts fold_left]. unfold lasts. destruct (run g _ s' b) as [[s2 b']|]; reflexivity.
Qed.
Lemma run_unselected {S} (g : iprocess S) l : unselected l -> forall last st, run g last st l = Ok (st, l).
Proof.
  induction 1 as [|x r U H IH]; intros last st; [reflexivity|]. cbn [run]. rewrite U. cbn [bindr]. rewrite IH. cbn [bindr]. rewrite with_same. reflexivity.
Qed.

(** ** Searching back *)
Definition hit (n : rn) : bool := sets_previous (kind_of n) && match durs_of n with [] => false | _ => true end.
Lemma search_app a b : search (a ++ b) = match search a with Some d => Some d | None => search b end.
Proof.
  induction a as [|n a IH]; [reflexivity|]. unfold search in *. cbn [app find].
  destruct (sets_previous (kind_of n) && match durs_of n with [] => false | _ => true end) eqn:E; [|exact IH].
  destruct (durs_of n) as [|d r] eqn:D; [rewrite andb_false_r in E; discriminate|]. reflexivity.
Qed.
Lemma search_cons n l : search (n :: l) = if sets_previous (kind_of n) then match duration_scaling (durs_of n) with Some d => Some d | None => search l end else search l.
Proof.
  unfold search. cbn [find]. destruct (sets_previous (kind_of n)); cbn [andb]; [|reflexivity]. destruct (durs_of n) eqn:E; rewrite ?E; reflexivity.
Qed.
Lemma lasts_still v l : Forall (fun x => i_durs x = []) l -> lasts v l = v.
Proof.
  induction 1 as [|x r E H IH]; [reflexivity|]. unfold lasts in *. cbn [fold_left].
  assert (step v x = v) as ->. { unfold step, written. rewrite E. destruct (sets_previous (i_kind x)); reflexivity. } exact IH.
Qed.

Definition gentle (x : item) : Prop := i_sel x = true -> sets_previous (i_kind x) = true -> i_durs x = [].

Lemma search_bwd inr n : forall path right, outside_ok inr path n -> Forall gentle (durables inr path right n) ->
  search (bwd n) = lasts None (durables inr path right n).
Proof.
  induction n as [k b d kids IH] using rn_ind2. intros path right. rewrite ok_eq, durables_eq, bwd_eq. intros [O K] G.
  apply Forall_app in G. destruct G as [G1 G2]. rewrite search_cons, lasts_app. cbn [kind_of durs_of].
  assert (KS : search (bwds kids) = lasts None (flats inr path 0 kids)).
  { revert K G2 IH. clear. generalize 0. induction kids as [|c r IHr]; intros i K G IH; [reflexivity|]. cbn [flats bwds] in *.
    destruct K as [K1 K2]. apply Forall_app in G. destruct G as [G1 G2]. rewrite search_app, lasts_app.
    rewrite (IHr (S i) K2 G2 (Forall_inv_tail IH)). rewrite (Forall_inv IH _ _ K1 G1). symmetry. apply lasts_none. }
  destruct (sets_previous k) eqn:SP.
  - assert (is_durable k = true) as D by (unfold sets_previous in SP; destruct (is_durable k); [reflexivity|discriminate]).
    rewrite D in *. unfold lasts at 2. cbn [fold_left]. unfold step, written. cbn [i_kind i_durs]. rewrite SP.
    destruct d as [|d0 d]; [exact KS|]. cbn [duration_scaling].
    destruct (inr path) eqn:IN.
    + exfalso. pose proof (Forall_inv G1) as Z. specialize (Z eq_refl SP). discriminate.
    + symmetry. apply lasts_still. eapply Forall_impl; [|apply O; auto; discriminate]. intros x [_ Z]. exact Z.
  - destruct (is_durable k); unfold lasts at 2; cbn [fold_left]; unfold step; cbn [i_kind]; rewrite ?SP; exact KS.
Qed.

(** ** The tree is determined by its shape and its durables *)
Lemma flat_length inr n : forall path right n' right', bare n = bare n' -> length (durables inr path right n) = length (durables inr path right' n').
Proof.
  induction n as [k b d kids IH] using rn_ind2. intros path right [k' b' d' kids'] right' E. cbn [bare] in E. injection E as -> _ _ E.
  rewrite !durables_eq, !app_length. f_equal; [destruct (is_durable k'); reflexivity|].
  revert kids' E IH. generalize 0. induction kids as [|c r IHr]; intros i [|c' r'] E IH; try discriminate; [reflexivity|].
  cbn [map] in E. injection E as E1 E2. cbn [flats]. rewrite !app_length. rewrite (Forall_inv IH _ _ _ (hd_error r') E1). rewrite (IHr _ _ E2 (Forall_inv_tail IH)). reflexivity.
Qed.
Lemma app_inj_length {A} (a b c d : list A) : length a = length c -> a ++ b = c ++ d -> a = c /\ b = d.
Proof.
  revert c. induction a as [|x a IH]; intros [|y c] L E; try discriminate; [auto|]. cbn in *. injection E as -> E. destruct (IH c ltac:(lia) E). subst. auto.
Qed.
Lemma flat_inj inr n : forall path right n' right', bare n = bare n' -> durables inr path right n = durables inr path right' n' -> n = n'.
Proof.
  induction n as [k b d kids IH] using rn_ind2. intros path right [k' b' d' kids'] right' E F. cbn [bare] in E. injection E as -> -> ED EK.
  rewrite !durables_eq in F. apply app_inj_length in F; [|destruct (is_durable k'); reflexivity]. destruct F as [F1 F2].
  assert (d = d') as <-. { destruct (is_durable k'); [congruence|exact ED]. }
  f_equal. clear -F2 EK IH. revert kids' EK F2 IH. generalize 0. induction kids as [|c r IHr]; intros i [|c' r'] E F IH; try discriminate; [reflexivity|].
  cbn [map] in E. injection E as E1 E2. cbn [flats] in F. apply app_inj_length in F; [|apply flat_length; exact E1]. destruct F as [F1 F2].
  f_equal; [eapply (Forall_inv IH); eauto|]. eapply IHr; eauto. apply (Forall_inv_tail IH).
Qed.

Lemma hd_bare r r' : map bare r = map bare r' -> option_map bare (hd_error r) = option_map bare (hd_error r').
Proof. destruct r, r'; cbn; congruence. Qed.

(** ** The main lemma *)
Section Main.
Context {S : Type}.
Variable f : process S.
Variable g : iprocess S.
Variable fresh : S -> bool.
Definition item_of (sel : bool) (right : option rn) (n : rn) : item := Item sel (kind_of n) (removable right n) (blk_of n) (durs_of n).
Hypothesis f_durable : forall right before n st, is_durable (kind_of n) = true -> f right before n st = g (search before) (item_of true right n) st.
Hypothesis f_other : forall right before n st, is_durable (kind_of n) = false -> f right before n st = Ok (st, durs_of n).
Hypothesis g_stale : forall l l' x st, fresh st = false -> g l x st = g l' x st.
Hypothesis g_fresh : forall l x st st' d, g l x st = Ok (st', d) -> fresh st' = true ->
  fresh st = true /\ d = i_durs x /\ (sets_previous (i_kind x) = true -> d = []).
Variable inr : list nat -> bool.

Lemma visit_unselected n : forall path right before st, unselected (durables inr path right n) -> visit f inr path right before st n = Ok (st, n).
Proof.
  induction n as [k b d kids IH] using rn_ind2. intros path right before st. rewrite durables_eq, visit_eq. intros U. apply Forall_app in U. destruct U as [U1 U2].
  assert ((if inr path then f right before (RN k b d kids) st else Ok (st, d)) = Ok (st, d)) as ->.
  { destruct (inr path) eqn:IN; [|reflexivity]. destruct (is_durable k) eqn:D.
    - pose proof (Forall_inv U1) as Z. discriminate Z.
    - rewrite f_other by exact D. reflexivity. }
  cbn [bindr].
  assert (visits f inr path 0 before st kids = Ok (st, kids)) as ->; [|reflexivity].
  revert before U2 IH. generalize 0. clear. induction kids as [|c r IHr]; intros i before U IH; [reflexivity|]. cbn [visits flats] in *.
  apply Forall_app in U. destruct U as [U1 U2]. rewrite (Forall_inv IH _ _ _ _ U1). cbn [bindr]. rewrite (IHr _ _ U2 (Forall_inv_tail IH)). reflexivity.
Qed.

Lemma run_fresh l : forall last st st' l', run g last st l = Ok (st', l') -> fresh st' = true -> fresh st = true /\ l' = l /\ Forall gentle l.
Proof.
  induction l as [|x r IH]; intros last st st' l'; cbn [run].
  - intros [= <- <-] F. auto.
  - destruct (if i_sel x then g last x st else Ok (st, i_durs x)) as [[s d]|] eqn:G; cbn [bindr]; [|discriminate].
    destruct (run g (step last (with_durs x d)) s r) as [[s' r']|] eqn:R; cbn [bindr]; [|discriminate]. intros [= <- <-] F.
    destruct (IH _ _ _ _ R F) as (F1 & -> & GE). destruct (i_sel x) eqn:SX.
    + destruct (g_fresh _ _ _ _ _ G F1) as (F2 & -> & SP). split; [exact F2|]. rewrite with_same. split; [reflexivity|]. constructor; [|exact GE]. intros _. exact SP.
    + injection G as <- <-. split; [exact F1|]. rewrite with_same. split; [reflexivity|]. constructor; [|exact GE]. intros Z. congruence.
Qed.

Definition agree (before : list rn) (last : option (Q * Q)) (st : S) : Prop := fresh st = true -> search before = last.

Lemma agree_after n n' path right before last st st' l' :
  ((exists s, fresh s = true) -> outside_ok inr path n) -> agree before last st ->
  run g last st (durables inr path right n) = Ok (st', l') -> durables inr path right n' = l' -> bare n' = bare n ->
  agree (bwd n' ++ before) (lasts last l') st'.
Proof.
  intros O A R F B Fr. destruct (run_fresh _ _ _ _ _ R Fr) as (F1 & E & GE). subst l'.
  assert (n' = n) as -> by (eapply flat_inj; [exact B|exact E]).
  rewrite search_app, (search_bwd inr n path right (O (ex_intro _ _ Fr)) GE), (A F1), (lasts_none last). reflexivity.
Qed.

Lemma visit_run n : forall path right before last st,
  ((exists s, fresh s = true) -> outside_ok inr path n) ->
  agree before last st \/ unselected (durables inr path right n) ->
  match visit f inr path right before st n with
  | Ok (st', n') => bare n' = bare n /\ exists l', run g last st (durables inr path right n) = Ok (st', l') /\
      forall right', option_map bare right' = option_map bare right -> durables inr path right' n' = l'
  | Err e => run g last st (durables inr path right n) = Err e
  end.
Proof.
  induction n as [k b d kids IH] using rn_ind2. intros path right before last st O A.
  destruct A as [A|U].
  2:{ rewrite (visit_unselected _ _ _ _ _ U), (run_unselected _ _ U). split; [reflexivity|]. eexists. split; [reflexivity|]. intros right' R.
    rewrite !durables_eq. f_equal. destruct (is_durable k); [|reflexivity]. do 2 f_equal. apply removable_bare; auto. }
  (* the node itself *)
  set (n := RN k b d kids) in *.
  assert (HEAD : exists l0, durables inr path right n = l0 ++ flats inr path 0 kids /\
    match (if inr path then f right before n st else Ok (st, d)) with
    | Ok (st1, d1) => (is_durable k = false -> d1 = d) /\
        run g last st l0 = Ok (st1, if is_durable k then [Item (inr path) k (removable right n) b d1] else []) /\
        ((agree before (lasts last (if is_durable k then [Item (inr path) k (removable right n) b d1] else [])) st1) \/ unselected (flats inr path 0 kids))
    | Err e => run g last st l0 = Err e
    end).
  { exists (if is_durable k then [Item (inr path) k (removable right n) b d] else []). split; [apply durables_eq|].
    destruct (is_durable k) eqn:D.
    - cbn [run i_sel]. destruct (inr path) eqn:IN.
      + rewrite (f_durable right before n st D). fold (item_of true right n).
        assert (GL : g (search before) (item_of true right n) st = g last (item_of true right n) st).
        { destruct (fresh st) eqn:Fr; [rewrite (A Fr); reflexivity|apply g_stale; exact Fr]. }
        rewrite GL. unfold item_of. cbn [kind_of blk_of durs_of n].
        destruct (g last _ st) as [[st1 d1]|] eqn:G; cbn [bindr]; [|reflexivity].
        split; [discriminate|]. split; [reflexivity|]. left. intros Fr. destruct (g_fresh _ _ _ _ _ G Fr) as (F1 & -> & SP).
        cbn [i_kind i_durs] in *. rewrite (A F1). unfold lasts. cbn [fold_left]. unfold step, written. cbn [i_kind i_durs].
        change (i_kind (item_of true right n)) with k in SP. change (i_durs (item_of true right n)) with d in *.
        destruct (sets_previous k); [|reflexivity]. assert (Ed : d = []) by (apply SP; reflexivity). clear -Ed. rewrite Ed. reflexivity.
      + cbn [bindr i_durs i_sel]. split; [auto|]. split; [reflexivity|].
        destruct (fresh st) eqn:Fr.
        * specialize (O (ex_intro _ _ Fr)). unfold n in O. rewrite ok_eq in O. destruct O as [O _].
          destruct (sets_previous k) eqn:SP; [destruct d as [|d0 d']|].
          -- left. intros _. rewrite (A Fr). unfold lasts. cbn [fold_left]. unfold step, written. cbn [i_kind i_durs]. rewrite SP. reflexivity.
          -- right. eapply Forall_impl; [|apply O; auto; discriminate]. intros x [Z _]. exact Z.
          -- left. intros _. rewrite (A Fr). unfold lasts. cbn [fold_left]. unfold step. cbn [i_kind]. rewrite SP. reflexivity.
        * left. intros Z. congruence.
    - cbn [run]. destruct (inr path).
      + rewrite (f_other right before n st D). split; [auto|]. split; [reflexivity|]. left. exact A.
      + split; [auto|]. split; [reflexivity|]. left. exact A. }
  destruct HEAD as (l0 & E & HEAD). rewrite E. unfold n at 1. rewrite visit_eq. fold n. rewrite run_app.
  destruct (if inr path then f right before n st else Ok (st, d)) as [[st1 d1]|e1]; cbn [bindr]; [|rewrite HEAD; reflexivity].
  destruct HEAD as (KD & R0 & A1). rewrite R0. cbn [bindr]. clear R0 A.
  set (h := if is_durable k then [Item (inr path) k (removable right n) b d1] else []) in *.
  set (last1 := lasts last h) in *. clearbody last1.
  (* the children *)
  assert (KIDS : match visits f inr path 0 before st1 kids with
    | Ok (st', kids') => map bare kids' = map bare kids /\ exists l', run g last1 st1 (flats inr path 0 kids) = Ok (st', l') /\ flats inr path 0 kids' = l'
    | Err e => run g last1 st1 (flats inr path 0 kids) = Err e end).
  { assert (O2 : (exists s, fresh s = true) -> oks inr path 0 kids). { intros X. specialize (O X). unfold n in O. rewrite ok_eq in O. apply O. }
    clear -IH O2 A1 g_fresh f_other. revert before last1 st1 IH O2 A1. generalize 0. induction kids as [|c r IHr]; intros i before last1 st1 IH O2 A1.
    { cbn. split; [reflexivity|]. eexists. split; reflexivity. }
    cbn [visits flats oks] in *. rewrite run_app.
    assert (A2 : agree before last1 st1 \/ unselected (durables inr (path ++ [i]) (hd_error r) c)).
    { destruct A1 as [A1|A1]; [auto|]. right. apply Forall_app in A1. apply A1. }
    pose proof (Forall_inv IH (path ++ [i]) (hd_error r) before last1 st1 (fun X => proj1 (O2 X)) A2) as HC.
    destruct (visit f inr (path ++ [i]) (hd_error r) before st1 c) as [[s2 c']|e]; cbn [bindr]; [|rewrite HC; reflexivity].
    destruct HC as (BC & lc & RC & FC). rewrite RC. cbn [bindr].
    assert (A3 : agree (bwd c' ++ before) (lasts last1 lc) s2 \/ unselected (flats inr path (Datatypes.S i) r)).
    { destruct A1 as [A1|A1]; [left|right].
      - eapply agree_after; [exact (fun X => proj1 (O2 X))|exact A1|exact RC|apply FC; reflexivity|exact BC].
      - apply Forall_app in A1. apply A1. }
    specialize (IHr (Datatypes.S i) (bwd c' ++ before) (lasts last1 lc) s2 (Forall_inv_tail IH) (fun X => proj2 (O2 X)) A3).
    destruct (visits f inr path (Datatypes.S i) (bwd c' ++ before) s2 r) as [[s3 r']|e]; cbn [bindr]; [|rewrite IHr; reflexivity].
    destruct IHr as (BR & lr & RR & FR). rewrite RR. cbn [bindr map]. split; [congruence|]. eexists. split; [reflexivity|].
    cbn [flats]. rewrite FR. f_equal. apply FC. apply hd_bare. exact BR. }
  destruct (visits f inr path 0 before st1 kids) as [[s2 kids']|e]; cbn [bindr]; [|rewrite KIDS; reflexivity].
  destruct KIDS as (BK & lk & RK & FK). rewrite RK. cbn [bindr].
  assert (BN : bare (RN k b d1 kids') = bare n).
  { unfold n. cbn [bare]. rewrite BK. destruct (is_durable k) eqn:D; [reflexivity|]. rewrite KD by reflexivity. reflexivity. }
  split; [exact BN|]. eexists. split; [reflexivity|]. intros right' R. rewrite durables_eq, FK. f_equal. unfold h.
  destruct (is_durable k); [|reflexivity]. do 2 f_equal. apply removable_bare; assumption.
Qed.
End Main.

(** Editing the document. *)
Lemma edit_run {S} (f : process S) (g : iprocess S) (fresh : S -> bool) :
  (forall right before n st, is_durable (kind_of n) = true -> f right before n st = g (search before) (item_of true right n) st) ->
  (forall right before n st, is_durable (kind_of n) = false -> f right before n st = Ok (st, durs_of n)) ->
  (forall l l' x st, fresh st = false -> g l x st = g l' x st) ->
  (forall l x st st' d, g l x st = Ok (st', d) -> fresh st' = true -> fresh st = true /\ d = i_durs x /\ (sets_previous (i_kind x) = true -> d = [])) ->
  forall inr t st, ((exists s, fresh s = true) -> starts_outside_chords inr t) ->
  match edit f inr st t with
  | Ok (st', t') => bare t' = bare t /\ run g None st (document inr t) = Ok (st', document inr t')
  | Err e => run g None st (document inr t) = Err e
  end.
Proof.
  intros H1 H2 H3 H4 inr t st O. unfold edit, document.
  pose proof (visit_run f g fresh H1 H2 H3 H4 (fun p => match p with [] => false | _ => inr p end) t [] None [] None st O) as V.
  specialize (V (or_introl (fun _ => eq_refl))).
  destruct (visit f _ [] None [] st t) as [[s t']|e]; [|exact V]. destruct V as (B & l & R & F). split; [exact B|]. rewrite (F None eq_refl). exact R.
Qed.
