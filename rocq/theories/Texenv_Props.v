(** Property C142: environments made by name. *)
From Coq Require Import String Ascii List Bool Arith Lia.
From Verif Require Import Base Element_Model Element_Spec Element_Proofs Element_Props Element_Part Texenv_Model.
Import ListNotations.

(** ** Specification *)

(** Whitespace with at least one newline: what follows is on another line. *)
Definition line_break (g : str) : Prop := blank g /\ In nl g.
(** The lines around the environment. *)
Definition first_line (name : str) : str := txt "\begin{" ++ name ++ txt "}".
Definition last_line (name : str) : str := txt "\end{" ++ name ++ txt "}".
(** All the whitespace that a tree asks for is whitespace. *)
Definition whitespace_only (cs : attrs -> elem -> elem -> str) (e : elem) : Prop := forall w, In (Req w) (layout cs e) -> blank w.

(** ** Proofs *)

Lemma trailing_add ws l : l <> [] -> trailing [] (add_last ws l) = trailing [] l ++ ws.
Proof.
  induction l as [|[t v] l IH]; [congruence|]. intros _. destruct l as [|y l]; [reflexivity|].
  change (add_last ws ((t, v) :: y :: l)) with ((t, v) :: add_last ws (y :: l)). cbn [trailing].
  destruct (add_last ws (y :: l)) as [|z zs] eqn:A; [destruct y, l; discriminate|].
  assert (X : forall d e q, q <> [] -> trailing d q = trailing e q) by (intros d e [|[? ?] ?] N; [congruence|reflexivity]).
  rewrite (X v [] (z :: zs)) by discriminate. rewrite (IH ltac:(discriminate)). reflexivity.
Qed.
Lemma break_of ws g : strongest ws g -> In [nl] ws -> (forall w, In w ws -> blank w) -> line_break g.
Proof.
  intros S I B. assert (NE : ws <> []) by (intros ->; destruct I). split; [apply B; now apply strongest_in|].
  pose proof (strongest_max _ _ _ S I) as M. unfold stronger in M.
  assert (X : 1 <= newlines g) by (change (newlines [nl]) with 1 in M; lia).
  unfold newlines, occurrences in X. destruct (filter (Ascii.eqb nl) g) as [|c r] eqn:F; [cbn in X; lia|].
  assert (J : In c (filter (Ascii.eqb nl) g)) by (rewrite F; now left). apply filter_In in J as [J E]. apply Ascii.eqb_eq in E. now subst.
Qed.
Lemma command_layout cs h k b f : k <> [] -> layout cs (command h k b f) =
  [Req b; Txt (Frag None (Ok (txt "\" ++ h)) false); Req []] ++ child_layout cs (new_text 1 (txt "\" ++ h) b f) k.
Proof. intros NE. unfold command. rewrite layout_eq. cbn [has_head has_tail a_kind new_text]. rewrite app_nil_r. destruct k; [congruence|reflexivity]. Qed.

Lemma mid_layout cs a e : a_kind a = Plain -> shown e = true -> (forall n m, blank (cs a n m)) -> forall children, Forall (whitespace_only cs) children ->
  exists M, child_layout cs a (children ++ [e]) = M ++ layout cs e ++ [Req (a_after a)] /\
    text_items M = flat_map texts children /\ forall w, In (Req w) M -> blank w.
Proof.
  intros KA SE BC. induction children as [|n r IH]; intros F.
  - exists []. cbn [app child_layout]. rewrite SE. unfold has_tail. rewrite KA. rewrite app_nil_r. repeat split. intros w [].
  - inversion F as [|? ? FN FR]; subst. destruct (IH FR) as (M & E & T & B). cbn [app child_layout]. rewrite E.
    set (sep := if shown n then _ else _).
    assert (S1 : text_items sep = []) by (subst sep; destruct (shown n); [destruct (r ++ [e]); [destruct (has_tail a)|]|]; reflexivity).
    assert (S2 : forall w, In (Req w) sep -> blank w).
    { subst sep. intros w I. destruct (shown n); [|destruct I]. destruct (r ++ [e]) as [|m q] eqn:R; [destruct r; discriminate|].
      destruct I as [X|[]]. injection X as <-. apply BC. }
    exists (layout cs n ++ sep ++ M). split; [now rewrite !app_assoc|]. split.
    + rewrite !text_items_app, layout_texts, S1, T. reflexivity.
    + intros w I. rewrite !in_app_iff in I. destruct I as [I|[I|I]]; auto.
Qed.

Lemma two t u v s : joined [(t, [[]; []]); (u, v)] s -> s = t ++ u.
Proof.
  intros J. inversion J as [| |? ? g' ? ? s' G J']; subst. inversion J'; subst.
  assert (I : In g' [[]; []]) by (apply strongest_in; [exact G|discriminate]). destruct I as [<-|[<-|[]]]; reflexivity.
Qed.

(** An environment made with any name and any children is written as a first line with the name, the texts of the children in order,
    and a last line with the same name; the lines are their own. *)
Theorem C142_written : forall cs a name children ts,
  a_kind a = Plain -> (forall n m, blank (cs a n m)) ->
  Forall has_origins children -> Forall2 is_text (flat_map texts children) ts -> Forall (whitespace_only cs) children ->
  exists s, write cs (with_name a name children) = Ok s /\
    (filter truthy ts = [] -> exists g, line_break g /\ s = first_line name ++ g ++ last_line name) /\
    (filter truthy ts <> [] -> exists g body g', line_break g /\ line_break g' /\ spaced (filter truthy ts) body /\
       s = first_line name ++ g ++ body ++ g' ++ last_line name).
Proof.
  intros cs a name children ts KA BC O T W.
  set (b := command (txt "begin") [environment_name name] [] [nl]). set (e := command (txt "end") [environment_name name] [nl] []).
  destruct (mid_layout cs a e KA eq_refl BC children W) as (M & EM & TM & BM).
  assert (TT : texts (with_name a name children) = [Ok (txt "\begin"); Ok (txt "{" ++ name ++ txt "}")] ++ flat_map texts children ++ [Ok (txt "\end"); Ok (txt "{" ++ name ++ txt "}")]).
  { unfold with_name. assert (G : forall l, texts (E a l) = flat_map texts l).
    { intros l. cbn [texts]. unfold has_head, has_tail. rewrite KA. cbn [app]. rewrite app_nil_r. induction l as [|n r IH]; [reflexivity|]. cbn [flat_map]. now rewrite IH. }
    rewrite G, !flat_map_app. reflexivity. }
  assert (OO : has_origins (with_name a name children)).
  { unfold with_name. apply has_origins_eq. split; [now left|]. cbn [app all_origins]. split; [cbn; repeat split; right; discriminate|].
    clear - O. induction O as [|n r ON OR IH]; cbn [app all_origins]; [cbn; repeat split; right; discriminate|auto]. }
  destruct (write_spec cs (with_name a name children) ([txt "\begin"; txt "{" ++ name ++ txt "}"] ++ ts ++ [txt "\end"; txt "{" ++ name ++ txt "}"]) OO) as (s & WS & J & _).
  { rewrite TT. apply Forall2_app; [repeat constructor|]. apply Forall2_app; [exact T|repeat constructor]. }
  exists s. split; [exact WS|].
  assert (L : exists c1, blank c1 /\ layout cs (with_name a name children) = (layout cs b ++ [Req c1]) ++ M ++ layout cs e ++ [Req (a_after a)]).
  { unfold with_name. fold b e. rewrite layout_eq. unfold has_head at 1. unfold has_tail at 1. rewrite KA. rewrite app_nil_r. cbn [app child_layout]. rewrite EM.
    change (shown b) with true. cbv iota. destruct (children ++ [e]) as [|m q] eqn:Q; [destruct children; discriminate|].
    exists (cs a b m). split; [apply BC|]. now rewrite <- app_assoc. }
  destruct L as (c1 & BC1 & L).
  assert (SP : sections (layout cs b ++ [Req c1]) = ([[]], [(txt "\begin", [[]; []]); (txt "{" ++ name ++ txt "}", [[]; [nl]; c1])])) by reflexivity.
  assert (SQ : sections (layout cs e ++ [Req (a_after a)]) = ([[nl]], [(txt "\end", [[]; []]); (txt "{" ++ name ++ txt "}", [[]; []; a_after a])])) by reflexivity.
  rewrite L, sections_app, SP in J. rewrite sections_app, SQ in J.
  assert (TS : map fst (snd (sections M)) = filter truthy ts) by (apply section_texts_spec; rewrite TM; exact T).
  pose proof (proj1 (sections_reqs_in M)) as RM1. pose proof (proj2 (sections_reqs_in M)) as RM2.
  assert (RB : forall w, In w (item_reqs M) -> blank w).
  { intros w I. apply BM. clear - I. induction M as [|[v|f] l IH]; cbn [item_reqs] in I; [destruct I| |right; auto]. destruct I as [->|I]; [now left|right; auto]. }
  assert (BN : blank [nl]) by (intros c [<-|[]]; reflexivity).
  assert (B0 : blank []) by (intros c []).
  destruct (sections M) as [wm sm] eqn:SM. cbn [fst snd] in *.
  split.
  - intros N. rewrite N in TS. destruct sm; [|discriminate]. cbn [fst snd] in J.
    apply joined_app in J as (s1 & g & s2 & -> & J1 & G & J2); [|discriminate|discriminate].
    apply joined_drop, two in J1. apply two in J2. subst. rewrite trailing_add in G by discriminate. cbn [trailing] in G.
    exists g. split; [|unfold first_line, last_line; now rewrite <- !app_assoc].
    eapply break_of; [exact G|cbn; auto|]. intros w I. rewrite !in_app_iff in I. destruct I as [[<-|[<-|[<-|[]]]]|[I|[<-|[]]]]; auto.
  - intros N. destruct sm as [|x sm]; [cbn in TS; congruence|].
    set (q := x :: sm) in *. assert (NQ : q <> []) by discriminate.
    cbv iota in J. cbn [fst snd] in J.
    apply joined_app in J as (s1 & g & s2 & -> & J1 & G & J2); [|discriminate|].
    2: { intros X. apply app_eq_nil in X as [_ X]. discriminate. }
    apply joined_drop, two in J1. rewrite trailing_add in G by discriminate. cbn [trailing] in G.
    assert (NA : add_last [[nl]] q <> []) by (subst q; destruct x, sm; discriminate).
    apply joined_app in J2 as (body & g' & s3 & -> & JB & G' & J3); [|exact NA|discriminate].
    apply joined_drop in JB. apply two in J3. rewrite trailing_add in G' by exact NQ. subst s1 s3.
    exists g, body, g'. split; [|split; [|split]].
    + eapply break_of; [exact G|cbn; auto|]. intros w I. rewrite !in_app_iff in I. destruct I as [[<-|[<-|[<-|[]]]]|I]; auto.
    + eapply break_of; [exact G'|apply in_or_app; right; now left|]. intros w I. rewrite in_app_iff in I. destruct I as [I|[<-|[]]]; auto.
      assert (TI : forall l d w, l <> [] -> In w (trailing d l) -> exists t ws, In (t, ws) l /\ In w ws).
      { clear. induction l as [|[t v] l IH]; intros d w NE I; [congruence|]. cbn [trailing] in I. destruct l as [|y l]; [exists t, v; split; [now left|exact I]|].
        destruct (IH v w ltac:(discriminate) I) as (t' & ws & I1 & I2). exists t', ws. split; [now right|exact I2]. }
      destruct (TI q [] w NQ I) as (t & ws & I1 & I2). apply RB. eapply RM2; eauto.
    + rewrite <- TS. apply joined_spaced; [exact JB|]. intros t ws w I1 I2. apply RB. eapply RM2; eauto.
    + unfold first_line, last_line. now rewrite <- !app_assoc.
Qed.
Print Assumptions C142_written.

(** A new environment without keyword arguments, with a text in an environment of its own. *)
Example C142_witness :
  let inner := with_name new_environment (txt "center") [E (new_text 3 (txt "some text") [] []) []] in
  whitespace_only concat_default inner /\ has_origins inner /\
  write concat_default (with_name new_environment (txt "document") [inner]) =
  Ok (txt "\begin{document}" ++ [nl] ++ txt "\begin{center}" ++ [nl] ++ txt "some text" ++ [nl] ++ txt "\end{center}" ++ [nl] ++ txt "\end{document}").
Proof.
  cbv zeta. split; [|split; [|reflexivity]].
  - intros w I. repeat (destruct I as [I|I]; [first [discriminate I|injection I as <-; intros c J; repeat (destruct J as [<-|J]; [reflexivity|]); destruct J]|]). destruct I.
  - cbn. repeat split; (now left) || (right; discriminate).
Qed.
