From Coq Require Import String Ascii List Arith Bool Lia.
From Verif Require Import Base Element_Model Element_Spec Element_Proofs.
Import ListNotations.

(** * Text *)
Lemma skipn_skipn : forall A (a b : nat) (l : list A), skipn a (skipn b l) = skipn (b + a) l.
Proof.
  intros A a b. induction b as [|b IH]; intros l; [reflexivity|].
  destruct l as [|x l]; [rewrite !skipn_nil; reflexivity|]. cbn. apply IH.
Qed.

Lemma between_same : forall t i, between t i i = [].
Proof. intros. unfold between. rewrite Nat.sub_diag. reflexivity. Qed.

Lemma between_skipn : forall t a b, a <= b -> skipn a t = between t a b ++ skipn b t.
Proof.
  intros t a b L. unfold between. rewrite <- (firstn_skipn (b - a) (skipn a t)) at 1. f_equal.
  rewrite skipn_skipn. f_equal. lia.
Qed.

Lemma between_app : forall t a b c, a <= b -> b <= c -> between t a c = between t a b ++ between t b c.
Proof.
  intros t a b c L1 L2. unfold between.
  replace (c - a) with ((b - a) + (c - b)) by lia.
  rewrite <- (firstn_skipn (b - a) (firstn _ _)).
  rewrite firstn_firstn. replace (Init.Nat.min (b - a) (b - a + (c - b))) with (b - a) by lia. f_equal.
  rewrite skipn_firstn_comm, skipn_skipn. replace (a + (b - a)) with b by lia. f_equal. lia.
Qed.

Lemma in_order_mono : forall cs a b, a <= b -> in_order b cs -> in_order a cs.
Proof. intros [|c cs] a b L I; [exact Logic.I|]. cbn [in_order] in *. intuition lia. Qed.

Lemma apply_from : forall text cs a b, a <= b -> in_order b cs ->
  apply_changes text a cs = between text a b ++ apply_changes text b cs.
Proof.
  intros text [|c cs] a b L I; cbn [apply_changes in_order] in *.
  - apply between_skipn; exact L.
  - rewrite (between_app text a b (c_pos c)) by lia. rewrite <- app_assoc. reflexivity.
Qed.


Lemma nth_between : forall text i j k c, nth_error (between text i j) k = Some c -> nth_error text (i + k) = Some c /\ i + k < j.
Proof.
  intros text i j k c N. unfold between in N.
  assert (K : k < j - i).
  { assert (H : nth_error (firstn (j - i) (skipn i text)) k <> None) by congruence.
    apply nth_error_Some in H. rewrite firstn_length in H. lia. }
  split; [|lia].
  rewrite <- (firstn_skipn (j - i) (skipn i text)) in *.
  assert (G : nth_error (skipn i text) k = Some c).
  { rewrite <- (firstn_skipn (j - i) (skipn i text)). rewrite nth_error_app1; [|].
    - rewrite firstn_skipn in N. exact N.
    - assert (H : nth_error (firstn (j - i) (skipn i text)) k <> None) by (rewrite firstn_skipn in N; congruence).
      apply nth_error_Some in H. exact H. }
  clear N. revert text G. induction i as [|i IH]; intros text G; [exact G|].
  destruct text as [|x text]; [rewrite skipn_nil in G; destruct k; discriminate|]. apply (IH ltac:(lia) text). exact G.
Qed.

Section Edits.
Variable text : str.
Variable all : list token.
Variable s0 c1 : nat.
Hypothesis ordered : tokens_from 0 all.
Hypothesis white : forall i c, s0 <= i < c1 -> outside all i -> nth_error text i = Some c -> is_ws c = true.

Lemma blank_between : forall i j, s0 <= i -> j <= c1 -> (forall k, i <= k < j -> outside all k) -> blank (between text i j).
Proof.
  intros i j L1 L2 O c I. apply In_nth_error in I. destruct I as [k K].
  apply nth_between in K. destruct K as [K1 K2].
  apply (white (i + k) c); [lia|apply O; lia|exact K1].
Qed.

Lemma tokens_from_in : forall ts from t, tokens_from from ts -> In t ts -> from <= t_pos t /\ t_pos t < t_end t.
Proof.
  induction ts as [|x ts IH]; intros from t F I; [destruct I|].
  cbn in F. destruct F as (F1 & F2 & F3). destruct I as [<-|I]; [auto|].
  specialize (IH _ _ F3 I). lia.
Qed.

Lemma tokens_from_mono : forall ts a b, a <= b -> tokens_from b ts -> tokens_from a ts.
Proof. intros [|t ts] a b L F; [exact Logic.I|]. cbn in *. intuition lia. Qed.

Lemma tokens_from_app : forall xs ys from, tokens_from from (xs ++ ys) ->
  tokens_from from xs /\ tokens_from from ys /\ (forall x y, In x xs -> In y ys -> t_end x <= t_pos y).
Proof.
  induction xs as [|t xs IH]; intros ys from F; [cbn in *; repeat split; auto; intros x y []|].
  cbn [app tokens_from] in F. destruct F as (F1 & F2 & F3).
  destruct (IH _ _ F3) as (A & B & C). cbn [tokens_from]. repeat split; auto.
  - apply (tokens_from_mono _ _ (t_end t)); [lia|exact B].
  - intros x y [<-|I] J; [|auto]. apply (tokens_from_in _ _ _ B J).
Qed.

(** Skipping tokens up to the one that starts at [ppos]. *)
Lemma skip_tokens_spec : forall toks used ppos pos d,
  all = used ++ toks -> (exists t, In t toks /\ t_pos t = ppos) ->
  exists skipped t rest, toks = skipped ++ t :: rest /\ t_pos t = ppos /\
    (forall x, In x skipped -> t_end x <= ppos) /\
    skip_tokens toks ppos pos d = (rest, ppos, match rev skipped with [] => d | x :: _ => t_end x end).
Proof.
  induction toks as [|t toks IH]; intros used ppos pos d A (x & I & P); [destruct I|].
  pose proof ordered as O. rewrite A in O. apply tokens_from_app in O. destruct O as (_ & O & _).
  cbn [tokens_from] in O. destruct O as (_ & O2 & O3).
  cbn [skip_tokens]. destruct (Nat.leb_spec ppos (t_pos t)) as [L|L].
  - exists [], t, toks. repeat split; auto.
    + destruct I as [->|I]; [exact P|]. pose proof (tokens_from_in _ _ _ O3 I). lia.
    + intros y [].
    + cbn. destruct I as [->|I]; [rewrite P; reflexivity|]. pose proof (tokens_from_in _ _ _ O3 I). lia.
  - destruct I as [->|I]; [lia|].
    destruct (IH (used ++ [t]) ppos pos (t_end t)) as (sk & y & rest & E1 & E2 & E3 & E4).
    { rewrite <- app_assoc. exact A. }
    { eauto. }
    exists (t :: sk), y, rest. split; [rewrite E1; reflexivity|]. split; [exact E2|]. split.
    + intros z [<-|Z]; [|auto]. pose proof (tokens_from_in _ _ _ O3 I). lia.
    + rewrite E4. f_equal. cbn [rev]. destruct (rev sk); reflexivity.
Qed.

Lemma last_token_end : forall ts from x r, tokens_from from ts -> rev ts = x :: r -> forall t, In t ts -> t_end t <= t_end x.
Proof.
  intros ts from x r F R t I. assert (E : ts = rev r ++ [x]) by (rewrite <- (rev_involutive ts), R; reflexivity).
  subst ts. apply tokens_from_app in F. destruct F as (F1 & F2 & F3).
  apply in_app_iff in I. destruct I as [I|[<-|[]]]; [|lia].
  specialize (F3 t x I (or_introl eq_refl)). cbn in F2. lia.
Qed.

Lemma strongest_two_nil : forall a b, collapse_whitespace [a; b] = [] -> strongest [a; b] [].
Proof. intros a b E. rewrite <- E. apply strongest_collapse. Qed.

Lemma blank_collapse : forall a b, blank a -> blank b -> blank (collapse_whitespace [a; b]).
Proof.
  intros a b A B. pose proof (strongest_in _ _ (strongest_collapse [a; b]) ltac:(discriminate)) as [<-|[<-|[]]]; assumption.
Qed.

Lemma between_nonempty : forall i j, i < j -> j <= length text -> between text i j <> [].
Proof.
  intros i j L1 L2 E. apply (f_equal (@length _)) in E. unfold between in E. rewrite firstn_length, skipn_length in E. cbn in E. lia.
Qed.

Lemma edits_loop_spec : forall ps used toks pos end_ a,
  all = used ++ toks -> (forall t, In t used -> t_end t <= pos) -> cuts_no_token all pos ->
  s0 <= pos -> last_end pos ps <= c1 -> c1 <= length text ->
  placed all pos ps -> Forall writable ps -> blank a -> Forall (fun p => blank (p_before p) /\ blank (p_after p)) ps ->
  exists cs s, edits_loop ps toks pos end_ a = Ok cs /\ in_order pos cs /\
    rewritten text a ps s /\
    apply_changes text pos cs = s ++ skipn (Nat.max (last_end pos ps) end_) text.
Proof.
  induction ps as [|p ps IH]; intros used toks pos end_ a A U CT S0 LE CL PL W BA BL.
  - cbn [edits_loop last_end]. destruct (Nat.ltb_spec pos end_) as [L|L].
    + eexists _, []. split; [reflexivity|]. cbn [in_order apply_changes c_pos c_end c_text].
      split; [lia|]. split; [constructor|]. rewrite between_same. cbn. f_equal. lia.
    + eexists _, []. split; [reflexivity|]. cbn [in_order apply_changes].
      split; [exact Logic.I|]. split; [constructor|]. cbn. f_equal. lia.
  - pose proof (Forall_inv W) as W1. pose proof (Forall_inv_tail W) as W2.
    pose proof (Forall_inv BL) as [B1 B2]. pose proof (Forall_inv_tail BL) as BL2.
    cbn [edits_loop]. set (space := collapse_whitespace [a; p_before p]).
    assert (SP : strongest [a; p_before p] space) by apply strongest_collapse.
    assert (BS : blank space) by (apply blank_collapse; assumption).
    cbn [placed] in PL. cbn [last_end] in LE |- *. unfold writable in W1.
    destruct (p_span p) as [[ppos pend]|] eqn:SPAN.
    + destruct PL as (P1 & P2 & P3 & P4 & P5).
      assert (LEG : forall ps from, placed all from ps -> from <= last_end from ps).
      { clear. induction ps as [|q ps IHl]; intros from P; [cbn; lia|].
        cbn [placed last_end] in *. destruct (p_span q) as [[i j]|]; [|auto].
        destruct P as (Q1 & Q2 & _ & _ & Q3). specialize (IHl _ Q3). lia. }
      pose proof (LEG _ _ P5) as LE2.
      (* the whitespace before the point *)
      assert (G : exists toks' before used' g,
        (if pos <? ppos then
              let '(tokens, pos', del_end) := skip_tokens toks ppos pos pos in
              (tokens,
               if pos <? del_end
               then [Change pos (if truthy space && (del_end <? pos') then pos' else del_end) space]
               else [])
            else (toks, if truthy space then [Change ppos ppos space] else [])) = (toks', before) /\
        all = used' ++ toks' /\ (forall t, In t used' -> t_end t <= pend) /\
        blank g /\ (space = [] \/ g <> []) /\
        (forall cs, in_order ppos cs -> in_order pos (before ++ cs) /\
           apply_changes text pos (before ++ cs) = g ++ apply_changes text ppos cs)).
      { destruct (Nat.ltb_spec pos ppos) as [L|L].
        - assert (T : exists t, In t toks /\ t_pos t = ppos).
          { destruct P3 as (t & I & P). rewrite A in I. apply in_app_iff in I. destruct I as [I|I]; [|eauto].
            specialize (U t I).
            assert (t_pos t < t_end t) by (apply (tokens_from_in all 0); [exact ordered|rewrite A; apply in_or_app; auto]). lia. }
          destruct (skip_tokens_spec toks used ppos pos pos A T) as (sk & t & rest & E1 & E2 & E3 & E4).
          rewrite E4. set (d := match rev sk with [] => pos | x :: _ => t_end x end).
          assert (AA : all = (used ++ sk ++ [t]) ++ rest) by (rewrite A, E1, <- !app_assoc; reflexivity).
          assert (OSK : tokens_from 0 sk).
          { pose proof ordered as O. rewrite A, E1 in O. apply tokens_from_app in O. destruct O as (_ & O & _).
            apply tokens_from_app in O. tauto. }
          assert (REST : forall y, In y (t :: rest) -> ppos <= t_pos y).
          { intros y I. pose proof ordered as O. rewrite A, E1 in O. apply tokens_from_app in O. destruct O as (_ & O & _).
            apply tokens_from_app in O. destruct O as (_ & O & _). cbn [tokens_from] in O. destruct O as (_ & O1 & O2).
            destruct I as [<-|I]; [lia|]. pose proof (tokens_from_in _ _ _ O2 I). lia. }
          assert (OUT : forall k, Nat.max pos d <= k < ppos -> outside all k).
          { intros k K y I [Y1 Y2]. rewrite A, E1 in I. apply in_app_iff in I. destruct I as [I|I].
            - specialize (U y I). lia.
            - apply in_app_iff in I. destruct I as [I|I]; [|specialize (REST y I); lia].
              unfold d in K. destruct (rev sk) as [|z r] eqn:RV.
              + apply (f_equal (@rev _)) in RV. rewrite rev_involutive in RV. cbn in RV. subst sk. destruct I.
              + pose proof (last_token_end sk 0 z r OSK RV y I). lia. }
          assert (DP : d <= ppos).
          { unfold d. destruct (rev sk) as [|z r] eqn:RV; [lia|]. apply E3. rewrite in_rev, RV. left; reflexivity. }
          exists rest. eexists. exists (used ++ sk ++ [t]).
          exists (if pos <? d then space ++ between text (if truthy space && (d <? ppos) then ppos else d) ppos else between text pos ppos).
          split; [reflexivity|]. split; [exact AA|]. split.
          { intros y I. rewrite !in_app_iff in I. destruct I as [I|[I|[<-|[]]]].
            - specialize (U y I). lia.
            - specialize (E3 y I). lia.
            - destruct (P4 t); [|assumption|lia]. rewrite AA, !in_app_iff. left; right; right; left; reflexivity. }
          destruct (Nat.ltb_spec pos d) as [LD|LD].
          + set (D := if truthy space && (d <? ppos) then ppos else d).
            assert (DD : d <= D <= ppos) by (unfold D; destruct (truthy space && (d <? ppos)); lia).
            split.
            { intros c I. apply in_app_iff in I. destruct I as [I|I]; [auto|].
              apply (blank_between D ppos); [lia|lia|intros; apply OUT; lia|exact I]. }
            split.
            { destruct space as [|c sp']; [left; reflexivity|right; discriminate]. }
            intros cs I. cbn [app in_order apply_changes c_pos c_end c_text]. split.
            { split; [lia|]. split; [lia|]. apply (in_order_mono _ _ ppos); [lia|exact I]. }
            rewrite between_same. cbn [app]. rewrite <- app_assoc. f_equal. apply apply_from; [lia|exact I].
          + split; [apply blank_between; [lia|lia|intros; apply OUT; lia]|]. split.
            { right. apply between_nonempty; lia. }
            intros cs I. cbn [app]. split; [apply (in_order_mono _ _ ppos); [lia|exact I]|]. apply apply_from; [lia|exact I].
        - assert (ppos = pos) by lia. subst ppos.
          exists toks. eexists. exists used, space. split; [reflexivity|]. split; [exact A|]. split; [intros t I; specialize (U t I); lia|].
          split; [exact BS|]. split; [destruct space; [left; reflexivity|right; discriminate]|].
          intros cs I. destruct space as [|c sp']; cbn [truthy app].
          + split; [exact I|reflexivity].
          + cbn [in_order apply_changes c_pos c_end c_text]. rewrite between_same. repeat split; auto. }
      destruct G as (toks' & before & used' & g & G1 & G2 & G3 & G4 & G5 & G6).
      rewrite G1.
      destruct (IH used' toks' pend end_ (p_after p) G2 G3 P4 ltac:(lia) LE CL P5 W2 B2 BL2) as (cs & s & R1 & R2 & R3 & R4).
      assert (SN : strongest [a; p_before p] [] \/ g <> []).
      { destruct G5 as [G5|G5]; [left; rewrite <- G5; exact SP|right; exact G5]. }
      destruct (p_modified p) eqn:MOD.
      * destruct (W1 (or_intror eq_refl)) as (t & PT). rewrite PT. cbn [bindr]. rewrite R1. cbn [bindr].
        destruct (G6 ([Change ppos pend t] ++ cs)) as (G7 & G8).
        { cbn [app in_order c_pos c_end]. repeat split; auto; lia. }
        eexists _, (g ++ t ++ s). split; [reflexivity|]. split; [exact G7|]. split.
        { eapply rw_modified; eauto. }
        etransitivity; [exact G8|]. rewrite <- !app_assoc. f_equal.
        cbn [app apply_changes c_pos c_end c_text]. rewrite between_same, R4. cbn [app]. reflexivity.
      * cbn [bindr]. rewrite R1. cbn [bindr].
        destruct (G6 cs) as (G7 & G8).
        { apply (in_order_mono _ _ pend); [lia|exact R2]. }
        eexists _, (g ++ between text ppos pend ++ s). split; [reflexivity|]. split; [exact G7|]. split.
        { eapply rw_kept; eauto. }
        etransitivity; [exact G8|]. rewrite <- !app_assoc. f_equal.
        rewrite (apply_from text cs ppos pend) by (lia || assumption). rewrite R4. reflexivity.
    + destruct (W1 (or_introl eq_refl)) as (t & PT). rewrite PT. cbn [bindr].
      destruct t as [|c t]; cbn [truthy].
      * destruct (IH used toks pos end_ a A U CT S0 LE CL PL W2 BA BL2) as (cs & s & R1 & R2 & R3 & R4).
        exists cs, s. repeat split; auto. apply rw_empty; assumption.
      * destruct (IH used toks pos end_ (p_after p) A U CT S0 LE CL PL W2 B2 BL2) as (cs & s & R1 & R2 & R3 & R4).
        rewrite R1. cbn [bindr]. eexists _, (space ++ (c :: t) ++ s). split; [reflexivity|].
        cbn [in_order apply_changes c_pos c_end c_text]. rewrite between_same. split; [auto|]. split.
        { eapply rw_new; eauto. discriminate. }
        rewrite R4. rewrite app_nil_l, <- !app_assoc. reflexivity.
Qed.

(** * Nothing to do *)
Lemma untouched_spec : forall ps used toks pos end_ a,
  all = used ++ toks -> (forall t, In t used -> t_end t <= pos) -> cuts_no_token all pos ->
  placed all pos ps -> untouched all pos a ps -> end_ <= last_end pos ps ->
  edits_loop ps toks pos end_ a = Ok [].
Proof.
  induction ps as [|p ps IH]; intros used toks pos end_ a A U CT PL UN LE.
  - cbn [edits_loop]. cbn [last_end] in LE. destruct (Nat.ltb_spec pos end_); [lia|reflexivity].
  - cbn [edits_loop placed untouched last_end] in *. destruct (p_span p) as [[ppos pend]|]; [|destruct UN].
    destruct PL as (P1 & P2 & P3 & P4 & P5). destruct UN as (U1 & U2 & U3 & U4). rewrite U1.
    destruct (Nat.ltb_spec pos ppos) as [L|L].
    + assert (T : exists t, In t toks /\ t_pos t = ppos).
      { destruct P3 as (t & I & P). rewrite A in I. apply in_app_iff in I. destruct I as [I|I]; [|eauto].
        specialize (U t I).
        assert (t_pos t < t_end t) by (apply (tokens_from_in all 0); [exact ordered|rewrite A; apply in_or_app; auto]). lia. }
      destruct (skip_tokens_spec toks used ppos pos pos A T) as (sk & t & rest & E1 & E2 & E3 & E4).
      rewrite E4. set (d := match rev sk with [] => pos | x :: _ => t_end x end).
      assert (AA : all = (used ++ sk ++ [t]) ++ rest) by (rewrite A, E1, <- !app_assoc; reflexivity).
      assert (D : d <= pos).
      { unfold d. destruct (rev sk) as [|z r] eqn:RV; [lia|].
        assert (I : In z sk) by (rewrite in_rev, RV; left; reflexivity).
        assert (Iz : In z all) by (rewrite A, E1, !in_app_iff; auto).
        destruct (CT z Iz); [assumption|]. exfalso. apply (U3 z Iz); [assumption|].
        specialize (E3 z I). pose proof (tokens_from_in _ _ _ ordered Iz). lia. }
      destruct (Nat.ltb_spec pos d); [lia|]. cbn [bindr].
      rewrite (IH (used ++ sk ++ [t]) rest pend end_ (p_after p) AA); auto.
      intros y I. rewrite !in_app_iff in I. destruct I as [I|[I|[<-|[]]]].
      * specialize (U y I). lia.
      * specialize (E3 y I). lia.
      * destruct (P4 t); [|assumption|lia]. rewrite AA, !in_app_iff. left; right; right; left; reflexivity.
    + assert (pos = ppos) by lia. specialize (U2 H).
      rewrite (strongest_unique _ _ _ (strongest_collapse [a; p_before p]) U2). cbn [truthy bindr].
      rewrite (IH used toks pend end_ (p_after p) A); auto.
      intros t I. specialize (U t I). lia.
Qed.
End Edits.
