(** C90-C93: reading markup, blocks, chord modifiers, lists and LilyPond in HTML and LaTeX. *)
From Coq Require Import String Ascii List Bool PeanoNat Wf_nat Compare_dec Lia ZifyBool ZifyNat.
From Verif Require Import Base Read_Model Read_Spec.
Import ListNotations.
Open Scope nat_scope.

Scheme argument_mind := Minimality for argument Sort Prop
with arguments_mind := Minimality for arguments Sort Prop.
Combined Scheme argument_both from argument_mind, arguments_mind.

Lemma read_arg_eq count fuel items : read_arg count (S fuel) items =
  match items with
  | [] => (None, [])
  | Tok t :: r =>
      match t_action t with
      | AText => (Some (N KMarkupWord [t] [] []), r)
      | AFunction => let (args, r) := take (read_arg count fuel) fuel (count (tl (t_text t))) r in (Some (N KMarkupCommand [t] args []), r)
      | _ => read_arg count fuel r
      end
  | Ctx _ (OElem n) :: r => (Some n, r)
  | _ :: r => read_arg count fuel r
  end.
Proof. destruct items as [|[t|nm [n|l|l|]] r]; try reflexivity. Qed.
Lemma read_noise count fuel i items : noise i -> read_arg count (S fuel) (i :: items) = read_arg count fuel items.
Proof. rewrite read_arg_eq. destruct i as [t|nm [n|l|l|]]; cbn [noise]; try tauto. intros [A B]. destruct (t_action t); congruence. Qed.
Lemma argument_nonempty arity : forall its n, argument arity its n -> its <> [].
Proof. intros its n H. destruct H; discriminate. Qed.

Lemma read_both arity :
  (forall its n, argument arity its n -> forall fuel rest, length its <= fuel -> read_arg arity fuel (its ++ rest) = (Some n, rest)) /\
  (forall its ns k, arguments arity its ns k -> forall fuel f rest, length its <= fuel -> length its <= f -> take (read_arg arity fuel) f k (its ++ rest) = (ns, rest)).
Proof.
  apply (argument_both arity (fun its n => forall fuel rest, length its <= fuel -> read_arg arity fuel (its ++ rest) = (Some n, rest))
    (fun its ns k => forall fuel f rest, length its <= fuel -> length its <= f -> take (read_arg arity fuel) f k (its ++ rest) = (ns, rest))).
  - intros t A [|fuel] rest L; [cbn in L; lia|]. cbn [app]. rewrite read_arg_eq, A. reflexivity.
  - intros nm n [|fuel] rest L; [cbn in L; lia|]. reflexivity.
  - intros t its ns k [A (b & name & E & K)] _ IH [|fuel] rest L; [cbn in L; lia|]. cbn [app List.length] in *. rewrite read_arg_eq, A, E. cbn [tl]. rewrite K, IH by lia. reflexivity.
  - intros i its n NO _ IH [|fuel] rest L; [cbn in L; lia|]. cbn [app List.length] in *. rewrite read_noise by exact NO. apply IH. lia.
  - intros fuel [|f] rest _ _; reflexivity.
  - intros its n its' ns k AR IH NC _ IH' fuel f rest L L'. rewrite app_length in *. pose proof (argument_nonempty _ _ _ AR) as NE. destruct its as [|i its]; [congruence|]. cbn [List.length] in *.
    destruct f as [|f]; [lia|]. cbn [take]. rewrite <- app_assoc, IH by (cbn [List.length]; lia). unfold is_remark in NC. destruct (cls_of n) eqn:E; [congruence|..]; rewrite IH' by lia; reflexivity.
  - intros its n its' ns k AR IH NC _ IH' fuel f rest L L'. rewrite app_length in *. pose proof (argument_nonempty _ _ _ AR) as NE. destruct its as [|i its]; [congruence|]. cbn [List.length] in *.
    destruct f as [|f]; [lia|]. cbn [take]. rewrite <- app_assoc, IH by (cbn [List.length]; lia). unfold is_remark in NC. rewrite NC. rewrite IH' by lia. reflexivity.
Qed.

Lemma read_shape arity : forall fuel items, length items <= fuel -> Forall some_text items ->
  match read_arg arity (S fuel) items with
  | (None, r) => r = [] /\ Forall noise items
  | (Some n, r) => length r < length items /\ exists its, items = its ++ r /\ (argument arity its n \/ r = [] /\ unfinished arity its n)
  end.
Proof.
  induction fuel as [fuel IH] using lt_wf_ind. intros items L ST.
  assert (NOI : forall i r, items = i :: r -> noise i -> match read_arg arity fuel r with
     | (None, r) => r = [] /\ Forall noise items
     | (Some n, r) => length r < length items /\ exists its, items = its ++ r /\ (argument arity its n \/ r = [] /\ unfinished arity its n) end).
  { intros i r -> NO. cbn [List.length] in L. destruct fuel as [|fuel]; [lia|]. inversion ST; subst. specialize (IH fuel ltac:(lia) r ltac:(lia) H2).
    destruct (read_arg arity (S fuel) r) as [[n|] r'].
    - destruct IH as (LL & its & E & H). subst r. split; [cbn [List.length]; lia|]. exists (i :: its). split; [reflexivity|]. destruct H as [H|[-> H]]; [left|right; split; [reflexivity|]]; constructor; assumption.
    - destruct IH as [-> F]. split; [reflexivity|]. constructor; assumption. }
  rewrite read_arg_eq. destruct items as [|[t|nm [n|l|l|]] r]; [split; [reflexivity|constructor]| | |apply (NOI _ _ eq_refl); exact Logic.I..].
  2: { split; [cbn; lia|]. exists [Ctx nm (OElem n)]. split; [reflexivity|]. left. constructor. }
  cbn [List.length] in L. inversion ST as [|? ? TX STr]; subst. cbn [some_text] in TX.
  destruct (t_action t) eqn:EA; [| |apply (NOI _ _ eq_refl); cbn [noise]; rewrite EA; split; discriminate..].
  - split; [cbn; lia|]. exists [Tok t]. split; [reflexivity|]. left. constructor. exact EA.
  - destruct (t_text t) as [|b name] eqn:ET; [congruence|]. cbn [tl].
    assert (TK : forall f k items, length items <= f -> length items < fuel -> Forall some_text items -> let (ns, r) := take (read_arg arity fuel) f k items in
      length r <= length items /\ exists its, items = its ++ r /\ (arguments arity its ns k \/ r = [] /\ some_of arity its ns k)).
    { clear - IH. induction f as [|f IHf]; intros k items L1 L2 ST; (destruct k as [|k]; [cbn [take]; split; [lia|]; exists []; split; [reflexivity|]; left; constructor|]).
      - destruct items; [|cbn in L1; lia]. cbn [take]. split; [lia|]. exists []. split; [reflexivity|]. right. split; [reflexivity|]. constructor. constructor.
      - cbn [take]. destruct fuel as [|fuel]; [lia|]. pose proof (IH fuel ltac:(lia) items ltac:(lia) ST) as X. destruct (read_arg arity (S fuel) items) as [[n|] r].
        + destruct X as (LL & its & E & H). assert (STr : Forall some_text r) by (rewrite E in ST; apply Forall_app in ST; tauto).
          specialize (IHf (match cls_of n with KComment => S k | _ => k end) r ltac:(lia) ltac:(lia) STr). destruct (take (read_arg arity (S fuel)) f _ r) as [l r'] eqn:ETK.
          destruct IHf as (LL' & its' & E' & H'). split; [lia|]. exists (its ++ its'). split; [rewrite E, E' at 1; apply app_assoc|].
          assert (DC : (is_remark n /\ match cls_of n with KComment => S k | _ => k end = S k) \/ (~ is_remark n /\ match cls_of n with KComment => S k | _ => k end = k)).
          { unfold is_remark. destruct (cls_of n); [left; auto|right; split; [discriminate|reflexivity]..]. }
          destruct H as [H|[-> H]].
          * destruct DC as [[C1 C2]|[C1 C2]]; rewrite C2 in H'; (destruct H' as [H'|[-> H']]; [left|right; split; [reflexivity|]]).
            -- apply args_remark; assumption. -- apply some_remark; assumption. -- apply args_one; assumption. -- apply some_one; assumption.
          * right. symmetry in E'. apply app_eq_nil in E'. destruct E' as [-> ->]. split; [reflexivity|]. rewrite app_nil_r.
            assert (l = []). { destruct f; cbn in ETK; destruct (match cls_of n with KComment => S k | _ => k end); try congruence; try (destruct fuel; cbn in ETK; congruence). }
            subst l. apply some_last. exact H.
        + destruct X as [-> F]. split; [cbn; lia|]. exists items. split; [symmetry; apply app_nil_r|]. right. split; [reflexivity|]. constructor. exact F. }
    specialize (TK fuel (arity name) r ltac:(lia)).
    destruct fuel as [|fuel]; [lia|].
    destruct (le_lt_dec (S fuel) (length r)) as [LE|LT].
    2: { specialize (TK LT STr). destruct (take (read_arg arity (S fuel)) (S fuel) (arity name) r) as [ns r']. destruct TK as (LL & its & E & H). split; [cbn [List.length]; lia|]. exists (Tok t :: its). split; [rewrite E; reflexivity|].
         assert (CM : command arity t (arity name)) by (split; [exact EA|exists b, name; auto]).
         destruct H as [H|[-> H]]; [left|right; split; [reflexivity|]]; econstructor; eassumption. }
    lia.
Qed.
Lemma next_spec arity items : Forall some_text items ->
  match next_arg arity items with
  | (None, r) => r = [] /\ Forall noise items
  | (Some n, r) => length r < length items /\ exists its, items = its ++ r /\ (argument arity its n \/ r = [] /\ unfinished arity its n)
  end.
Proof. intros H. apply read_shape; [lia|exact H]. Qed.
Lemma next_argument arity its n rest : argument arity its n -> next_arg arity (its ++ rest) = (Some n, rest).
Proof. intros H. apply (proj1 (read_both arity) _ _ H). rewrite app_length. lia. Qed.

Scheme unfinished_mind := Minimality for unfinished Sort Prop
with some_of_mind := Minimality for some_of Sort Prop.
Combined Scheme unfinished_both from unfinished_mind, some_of_mind.
Lemma read_all_noise arity : forall its fuel, Forall noise its -> read_arg arity (S fuel + length its) its = (None, []).
Proof.
  induction its as [|i its IH]; intros fuel H; [reflexivity|]. inversion H; subst. replace (S fuel + length (i :: its)) with (S (S fuel + length its)) by (cbn; lia). rewrite read_noise by assumption. apply IH. assumption.
Qed.
Lemma unfinished_nonempty arity : forall its n, unfinished arity its n -> its <> [].
Proof. intros its n H. destruct H; discriminate. Qed.
Lemma take_nil arity fuel f k : take (read_arg arity (S fuel)) f k [] = ([], []).
Proof. destruct k, f; reflexivity. Qed.
Lemma read_unfinished arity :
  (forall its n, unfinished arity its n -> forall fuel, length its < fuel -> read_arg arity fuel its = (Some n, [])) /\
  (forall its ns k, some_of arity its ns k -> forall fuel f, length its < fuel -> length its < f -> take (read_arg arity fuel) f k its = (ns, [])).
Proof.
  apply (unfinished_both arity (fun its n => forall fuel, length its < fuel -> read_arg arity fuel its = (Some n, []))
    (fun its ns k => forall fuel f, length its < fuel -> length its < f -> take (read_arg arity fuel) f k its = (ns, []))).
  - intros t its ns k [A (b & name & E & K)] _ IH [|fuel] L; [cbn in L; lia|]. cbn [app List.length] in *. rewrite read_arg_eq, A, E. cbn [tl]. rewrite K, IH by lia. reflexivity.
  - intros i its n NO _ IH [|fuel] L; [cbn in L; lia|]. cbn [app List.length] in *. rewrite read_noise by exact NO. apply IH. lia.
  - intros its k F fuel [|f] L L'; [lia|]. cbn [take]. replace fuel with (S (fuel - S (length its)) + length its) by lia. rewrite read_all_noise by exact F. reflexivity.
  - intros its n k U IH fuel f L L'. pose proof (unfinished_nonempty _ _ _ U). destruct its; [congruence|]. destruct f as [|f]; [cbn in L'; lia|]. cbn [take]. rewrite IH by lia. destruct fuel; [cbn in L; lia|]. rewrite take_nil. reflexivity.
  - intros its n its' ns k AR NC _ IH' fuel f L L'. rewrite app_length in *. pose proof (argument_nonempty _ _ _ AR) as NE. destruct its as [|i its]; [congruence|]. cbn [List.length] in *.
    destruct f as [|f]; [lia|]. cbn [take]. rewrite (proj1 (read_both arity) _ _ AR) by (cbn [List.length]; lia). unfold is_remark in NC. destruct (cls_of n) eqn:E; [congruence|..]; rewrite IH' by lia; reflexivity.
  - intros its n its' ns k AR NC _ IH' fuel f L L'. rewrite app_length in *. pose proof (argument_nonempty _ _ _ AR) as NE. destruct its as [|i its]; [congruence|]. cbn [List.length] in *.
    destruct f as [|f]; [lia|]. cbn [take]. rewrite (proj1 (read_both arity) _ _ AR) by (cbn [List.length]; lia). unfold is_remark in NC. rewrite NC. rewrite IH' by lia. reflexivity.
Qed.
Lemma all_args_spec arity : forall its ns, markup_text arity its ns -> forall fuel, length its <= fuel -> all_args arity fuel its = ns.
Proof.
  induction 1 as [its F|its n U|its n its' ns AR H IH]; intros fuel L.
  - destruct fuel; [reflexivity|]. cbn [all_args]. unfold next_arg. replace (S (length its)) with (S 0 + length its) by lia. rewrite read_all_noise by exact F. reflexivity.
  - pose proof (unfinished_nonempty _ _ _ U). destruct fuel; [destruct its; [congruence|cbn in L; lia]|]. cbn [all_args]. unfold next_arg. rewrite (proj1 (read_unfinished arity) _ _ U) by lia. destruct fuel; reflexivity.
  - pose proof (argument_nonempty _ _ _ AR). rewrite app_length in L. destruct fuel; [destruct its; [congruence|cbn in L; lia]|]. cbn [all_args]. rewrite (next_argument _ _ _ _ AR). f_equal. apply IH. destruct its; [congruence|cbn in L; lia].
Qed.

(** ** C90 *)
(** Markup is read as a list of arguments, each a word, an element, or a command with the number of arguments that it has. *)
Theorem C90_reads : forall arity items ns, markup_text arity items ns -> read_markup_arguments arity items = ns.
Proof. intros arity items ns H. apply all_args_spec; [exact H|lia]. Qed.
Print Assumptions C90_reads.

(** Every sequence of items can be read so, in exactly one way. *)
Theorem C90_unique : forall arity items, Forall some_text items ->
  markup_text arity items (read_markup_arguments arity items) /\ forall ns, markup_text arity items ns -> ns = read_markup_arguments arity items.
Proof.
  intros arity items ST. split; [|intros ns H; symmetry; apply C90_reads, H].
  assert (X : exists ns, markup_text arity items ns).
  { remember (length items) as n eqn:EN. revert items EN ST. induction n as [n IH] using lt_wf_ind. intros items -> ST. pose proof (next_spec arity items ST) as P.
    destruct (next_arg arity items) as [[a|] r].
    - destruct P as (L & its & E & H). destruct H as [H|[-> H]].
      + destruct (IH (length r) L r eq_refl) as [ns M]; [rewrite E in ST; apply Forall_app in ST; tauto|]. exists (a :: ns). rewrite E. apply text_more; assumption.
      + exists [a]. rewrite E, app_nil_r. apply text_unfinished, H.
    - exists []. apply text_end. tauto. }
  destruct X as [ns X]. rewrite (C90_reads _ _ _ X). exact X.
Qed.
Print Assumptions C90_unique.

Lemma argument_toks arity : (forall its n, argument arity its n -> toks n = flat_map item_toks (filter wanted its)) /\
  (forall its ns k, arguments arity its ns k -> flat_map toks ns = flat_map item_toks (filter wanted its)).
Proof.
  set (g := wanted).
  assert (NG : forall i, noise i -> g i = false). { intros [t|nm [n|l|l|]]; cbn; try tauto. intros [A B]. destruct (t_action t); congruence. }
  apply (argument_both arity (fun its n => toks n = flat_map item_toks (filter g its)) (fun its ns k => flat_map toks ns = flat_map item_toks (filter g its))).
  - intros t A. unfold g; cbn [filter wanted]. rewrite A. reflexivity.
  - intros nm n. cbn. symmetry. apply app_nil_r.
  - intros t its ns k [A _] _ IH. unfold g; cbn [filter wanted]. rewrite A. cbn [flat_map toks item_toks]. rewrite IH, app_nil_r. reflexivity.
  - intros i its n NO _ IH. cbn [filter]. rewrite NG by exact NO. exact IH.
  - reflexivity.
  - intros. cbn [flat_map]. rewrite filter_app, flat_map_app. congruence.
  - intros. cbn [flat_map]. rewrite filter_app, flat_map_app. congruence.
Qed.
Lemma noise_filter its : Forall noise its -> filter wanted its = [].
Proof.
  induction 1 as [|i its H _ IH]; [reflexivity|]. cbn [filter]. rewrite IH. destruct i as [t|nm [n|l|l|]]; cbn in *; try tauto. destruct H as [A B]. destruct (t_action t); congruence.
Qed.
Lemma unfinished_toks arity : (forall its n, unfinished arity its n -> toks n = flat_map item_toks (filter wanted its)) /\
  (forall its ns k, some_of arity its ns k -> flat_map toks ns = flat_map item_toks (filter wanted its)).
Proof.
  pose proof noise_filter as NF. pose proof (proj1 (argument_toks arity)) as AT.
  set (g := wanted) in *.
  apply (unfinished_both arity (fun its n => toks n = flat_map item_toks (filter g its)) (fun its ns k => flat_map toks ns = flat_map item_toks (filter g its))).
  - intros t its ns k [A _] _ IH. unfold g; cbn [filter wanted]. rewrite A. cbn [flat_map toks item_toks]. rewrite IH, app_nil_r. reflexivity.
  - intros i its n NO _ IH. specialize (NF [i] ltac:(auto)). cbn [filter] in *. destruct (g i); [discriminate|]. exact IH.
  - intros its k F. rewrite NF by exact F. reflexivity.
  - intros its n k _ IH. cbn [flat_map]. rewrite app_nil_r. exact IH.
  - intros its n its' ns k AR NC _ IH. cbn [flat_map]. rewrite filter_app, flat_map_app, IH. f_equal. apply AT, AR.
  - intros its n its' ns k AR NC _ IH. cbn [flat_map]. rewrite filter_app, flat_map_app, IH. f_equal. apply AT, AR.
Qed.
(** All words, commands and elements are there, once and in their order, whether the commands are complete or not. *)
Theorem C90_complete : forall arity items, Forall some_text items ->
  flat_map toks (read_markup_arguments arity items) = flat_map item_toks (filter wanted items).
Proof.
  intros arity items ST. destruct (C90_unique arity items ST) as [M _]. induction M as [its F|its n U|its n its' ns AR H IH].
  - rewrite noise_filter by exact F. reflexivity.
  - cbn [flat_map]. rewrite app_nil_r. apply (proj1 (unfinished_toks arity)), U.
  - cbn [flat_map]. rewrite filter_app, flat_map_app, IH by (apply Forall_app in ST; tauto). f_equal. apply (proj1 (argument_toks arity)), AR.
Qed.
Print Assumptions C90_complete.

(** [\markup] takes one argument, from its own context and from what follows; the reading goes on after it.
    Missing for the full claim: a comment before the argument (C90_comment_finding). *)
Theorem C90_markup_partial : forall arity c own following rest n, argument arity (own ++ following) n ->
  create_markup arity (Tok c :: own) (following ++ rest) = ([N KMarkup [c] [n] []], rest).
Proof.
  intros arity c own following rest n H. unfold create_markup. cbn [tl]. rewrite app_assoc, (next_argument _ _ _ _ H).
  destruct (Nat.ltb_spec (length (following ++ rest)) (length rest)) as [E|E]; [rewrite app_length in E; lia|reflexivity].
Qed.
Print Assumptions C90_markup_partial.
(** Without an argument no markup is made. *)
Theorem C90_nothing : forall arity c own following, Forall noise (own ++ following) -> create_markup arity (Tok c :: own) following = ([], []).
Proof.
  intros arity c own following H. unfold create_markup, next_arg. cbn [tl]. replace (S (length (own ++ following))) with (S 0 + length (own ++ following)) by lia. rewrite read_all_noise by exact H. reflexivity.
Qed.
Print Assumptions C90_nothing.

(** Finding: a comment before the argument becomes the argument, and what follows it in the context of [\markup] is lost. *)
Theorem C90_comment_finding : forall arity c name remark own items, is_remark remark ->
  create_markup arity (Tok c :: Ctx name (OElem remark) :: own) items = ([N KMarkup [c] [remark] []], if length items <? length (own ++ items) then items else own ++ items).
Proof. intros. reflexivity. Qed.
Theorem C90_lost_finding : forall arity c name remark own items,
  forall n, create_markup arity (Tok c :: Ctx name (OElem remark) :: own) items = ([n], items) -> toks n = c :: toks remark.
Proof. intros arity c name remark own items n H. unfold create_markup in H. cbn in H. injection H as H _. subst n. cbn. rewrite !app_nil_r. reflexivity. Qed.
Print Assumptions C90_comment_finding. Print Assumptions C90_lost_finding.

Definition tk (n : nat) (s : string) (a : action) : item := Tok (Token n (txt s) a None).
Definition tk' (n : nat) (s : string) (a : action) : token := Token n (txt s) a None.
Definition some_arity (s : str) : nat := if list_eq_dec ascii_dec s (txt "bold") then 1 else if list_eq_dec ascii_dec s (txt "pair") then 2 else 0.
(** \pair \bold one %c two \bold *)
Example C90_witness :
  let c := N KComment [tk' 9 "%c" (AOther 0)] [] [] in
  let items := [tk 0 "\pair" AFunction; tk 1 "\bold" AFunction; tk 2 "one" AText; tk 3 "?" (AOther 1); Ctx (txt "comment") (OElem c); tk 4 "two" AText; tk 5 "\bold" AFunction] in
  read_markup_arguments some_arity items =
   [N KMarkupCommand [tk' 0 "\pair" AFunction] [N KMarkupCommand [tk' 1 "\bold" AFunction] [N KMarkupWord [tk' 2 "one" AText] [] []] []; c; N KMarkupWord [tk' 4 "two" AText] [] []] [];
    N KMarkupCommand [tk' 5 "\bold" AFunction] [] []] /\ markup_text some_arity items (read_markup_arguments some_arity items).
Proof. split; [reflexivity|]. apply C90_unique. repeat constructor; discriminate. Qed.

Lemma common_spec arity make : forall its ns, common_text arity make its ns -> forall fuel, length its <= fuel -> common arity make fuel its = ns.
Proof.
  induction 1 as [|t n its ns E H IH|t its ns E H IH|nm n its ns H IH|c own following n its ns A H IH|nm l its ns H IH|nm its ns H IH]; intros [|fuel] L; cbn [List.length] in L; try lia; try reflexivity; cbn [common].
  - rewrite E. cbn [app]. f_equal. apply IH. lia.
  - rewrite E. apply IH. lia.
  - f_equal. apply IH. lia.
  - destruct (list_eq_dec ascii_dec (txt "markup") (txt "markup")) as [_|NE]; [|congruence]. rewrite (C90_markup_partial arity c own following its n A). cbn [app]. f_equal. apply IH. rewrite app_length in L. lia.
  - apply IH. lia.
  - apply IH. lia.
Qed.
(** The common reader (headers, paper, repeat ...) reads every markup with its argument, and goes on after it. *)
Theorem C90_common : forall arity make items ns, common_text arity make items ns -> read_common arity make items = ns.
Proof. intros arity make items ns H. apply (common_spec arity make items ns H). lia. Qed.
Print Assumptions C90_common.
Example C90_common_witness :
  let m := Ctx (txt "markup") (OItems [tk 0 "\markup" (AOther 0); tk 1 "\pair" AFunction]) in
  let items := [m; tk 2 "a" AText; tk 3 "b" AText; tk 4 "c" AText] in
  let ns := [N KMarkup [tk' 0 "\markup" (AOther 0)] [N KMarkupCommand [tk' 1 "\pair" AFunction] [N KMarkupWord [tk' 2 "a" AText] [] []; N KMarkupWord [tk' 3 "b" AText] [] []] []] []] in
  common_text some_arity (fun _ => None) items ns /\ read_common some_arity (fun _ => None) items = ns.
Proof.
  intros m items ns. assert (X : common_text some_arity (fun _ => None) items ns); [|split; [exact X|apply C90_common, X]].
  apply (common_markup some_arity _ (tk' 0 "\markup" (AOther 0)) [tk 1 "\pair" AFunction] [tk 2 "a" AText; tk 3 "b" AText]); [|apply common_skip; [reflexivity|constructor]].
  eapply arg_command; [split; [reflexivity|exists "\"%char, (txt "pair"); split; reflexivity]|].
  apply (args_one _ [tk 2 "a" AText]); [constructor; reflexivity|discriminate|]. apply (args_one _ [tk 3 "b" AText]); [constructor; reflexivity|discriminate|constructor].
Qed.

(** ** C91 *)
Lemma last_closed s pre t : last_is s (pre ++ [Tok t]) = Ok (item_is s (Tok t)).
Proof. unfold last_is. rewrite rev_app_distr. reflexivity. Qed.
Lemma item_is_text s t : item_is s (Tok t) = true <-> has_text s t.
Proof. unfold item_is, has_text. destruct (list_eq_dec ascii_dec (t_text t) (txt s)); split; congruence. Qed.
Lemma item_is_not s t : item_is s (Tok t) = false <-> ~ has_text s t.
Proof. unfold item_is, has_text. destruct (list_eq_dec ascii_dec (t_text t) (txt s)); split; congruence. Qed.
Lemma pop_closed s pre t : has_text s t -> pop_tail s (pre ++ [Tok t]) = Ok ([t], pre).
Proof.
  intros H. unfold pop_tail. rewrite last_closed. cbn [bindr]. rewrite (proj2 (item_is_text s t) H). rewrite app_length. cbn [List.length]. replace (length pre + 1 - 1) with (length pre) by lia.
  rewrite skipn_app, skipn_all, Nat.sub_diag. cbn [skipn app tokens flat_map]. rewrite removelast_last. reflexivity.
Qed.
Lemma last_open s items : items <> [] -> not_closed s items -> last_is s items = Ok false.
Proof.
  intros NE H. unfold last_is. destruct (rev items) as [|i r] eqn:E; apply (f_equal (@rev item)) in E; rewrite rev_involutive in E; cbn [rev] in E; [congruence|]. f_equal. destruct i as [t|]; [|reflexivity]. apply item_is_not. apply (H _ _ E).
Qed.
Lemma pop_open s items : items <> [] -> not_closed s items -> pop_tail s items = Ok ([], items).
Proof. intros NE H. unfold pop_tail. rewrite last_open by assumption. reflexivity. Qed.

Section C91.
Variables (arity : str -> nat) (act : token -> option node) (create_music : list item -> res (list node)) (build_tree handle_assignments : list node -> list node).
Notation mk_block := (create_block arity act create_music build_tree handle_assignments).

Lemma create_closed k c o body close m a : has_text "}" close ->
  mk_block k (block [c; o] body close) m a = let! l := (if m then create_music body else Ok (build_tree (read_common arity act body))) in Ok (N k [c; o] (if a then handle_assignments l else l) [close]).
Proof. intros H. unfold create_block, block. rewrite app_assoc, pop_closed by exact H. reflexivity. Qed.
Lemma create_open k c o body m a : not_closed "}" (open_block [c; o] body) ->
  mk_block k (open_block [c; o] body) m a = let! l := (if m then create_music body else Ok (build_tree (read_common arity act body))) in Ok (N k [c; o] (if a then handle_assignments l else l) []).
Proof. intros H. unfold create_block. rewrite pop_open; [reflexivity|discriminate|exact H]. Qed.

(** A complete block is read as an element with the first tokens as its head, the contents read, and the closing token as its tail. *)
(** Missing for the full claim: the score block, where it is false (C91_score_finding). *)
Theorem C91_closed_partial : forall c o body close k, has_text "}" close ->
  let music := create_music body in
  (book arity act create_music build_tree handle_assignments (block [c; o] body close) = let! l := music in Ok (N (if list_eq_dec ascii_dec (t_text c) (txt "\bookpart") then KBookPart else KBook) [c; o] l [close])) /\
  (header arity act create_music build_tree handle_assignments k (block [c; o] body close) = Ok (N k [c; o] (handle_assignments (build_tree (read_common arity act body))) [close])) /\
  (layout arity act create_music build_tree handle_assignments k (block [c; o] body close) = let! l := music in Ok (N k [c; o] (handle_assignments l) [close])) /\
  (layout_context arity act create_music build_tree handle_assignments (block [c; o] body close) = let! l := music in Ok (N (if list_eq_dec ascii_dec (t_text c) (txt "\with") then KWith else KLayoutContext) [c; o] (handle_assignments l) [close])) /\
  (markupscore arity act create_music build_tree handle_assignments (block [c; o] body close) = let! l := music in Ok (N (if list_eq_dec ascii_dec (t_text c) (txt "\score-lines") then KMarkupScoreLines else KMarkupScore) [c; o] l [close])) /\
  (has_text "{" o -> musiclist create_music (block [o] body close) = let! l := music in Ok (N KMusicList [o] l [close])) /\
  (markuplist arity (block [o] body close) = Ok (N KMarkupList [o] (read_markup_arguments arity body) [close])).
Proof.
  intros c o body close k H music.
  assert (B : forall s, (if item_is s (Tok c) then true else false) = if list_eq_dec ascii_dec (t_text c) (txt s) then true else false) by (intros s; unfold item_is; destruct (list_eq_dec _ _ _); reflexivity).
  split; [|split; [|split; [|split; [|split; [|split]]]]].
  - unfold book. cbn [first_is block map app bindr item_is]. change (Tok c :: Tok o :: body ++ [Tok close]) with (block [c; o] body close). rewrite create_closed by exact H. destruct (list_eq_dec _ _ _); reflexivity.
  - unfold header. rewrite create_closed by exact H. reflexivity.
  - unfold layout. rewrite create_closed by exact H. reflexivity.
  - unfold layout_context. cbn [first_is block map app bindr item_is]. change (Tok c :: Tok o :: body ++ [Tok close]) with (block [c; o] body close). rewrite create_closed by exact H. destruct (list_eq_dec _ _ _); reflexivity.
  - unfold markupscore. cbn [first_is block map app bindr item_is]. change (Tok c :: Tok o :: body ++ [Tok close]) with (block [c; o] body close). rewrite create_closed by exact H. destruct (list_eq_dec _ _ _); reflexivity.
  - intros HO. unfold musiclist, block. rewrite app_assoc, !last_closed. rewrite (proj2 (item_is_text "}" close) H). cbn [bindr orb]. rewrite removelast_last. cbn [map app first_is bindr skipn]. rewrite (proj2 (item_is_text "{" o) HO).
    destruct music as [l|e] eqn:E; unfold music in E; rewrite E; cbn [bindr]; [|reflexivity]. f_equal. f_equal. cbn [List.length]. rewrite app_length. cbn [List.length]. replace (S (length body + 1) - 1) with (S (length body)) by lia. cbn [skipn]. rewrite skipn_app, skipn_all, Nat.sub_diag. reflexivity.
  - unfold markuplist, block. rewrite app_assoc, pop_closed by exact H. reflexivity.
Qed.
(** The same of [<< >>] and chords. *)
Theorem C91_brackets : forall o body close,
  let music := create_music body in
  (~ has_text "{" o -> has_text ">>" close -> musiclist create_music (block [o] body close) = let! l := music in Ok (N KSimultaneous [o] l [close])) /\
  (has_text ">" close -> chord create_music (block [o] body close) = let! l := music in Ok (N KChord [] [N KChordBody [o] l [close]] [])) /\
  (forall k, has_text "#}" close -> schemelily create_music k (block [o] body close) = let! l := music in Ok (N k [o] l [close])).
Proof.
  intros o body close music. split; [|split].
  - intros HO H. unfold musiclist, block. rewrite app_assoc, !last_closed. rewrite (proj2 (item_is_text ">>" close) H). cbn [bindr]. rewrite orb_true_r, removelast_last. cbn [map app first_is bindr skipn]. rewrite (proj2 (item_is_not "{" o) HO).
    destruct music as [l|e] eqn:E; unfold music in E; rewrite E; cbn [bindr]; [|reflexivity]. f_equal. f_equal. cbn [List.length]. rewrite app_length. cbn [List.length]. replace (S (length body + 1) - 1) with (S (length body)) by lia. cbn [skipn]. rewrite skipn_app, skipn_all, Nat.sub_diag. reflexivity.
  - intros H. unfold chord, block. rewrite app_assoc, pop_closed by exact H. reflexivity.
  - intros k H. unfold schemelily, block. rewrite app_assoc, pop_closed by exact H. reflexivity.
Qed.
(** A block of which the text ends before it is closed has no tail, and the same contents. *)
Theorem C91_open : forall c o body k, not_closed "}" (open_block [c; o] body) -> not_closed "}" (open_block [o] body) -> not_closed ">>" (open_block [o] body) -> not_closed ">" (open_block [o] body) -> not_closed "#}" (open_block [o] body) ->
  let music := create_music body in
  (book arity act create_music build_tree handle_assignments (open_block [c; o] body) = let! l := music in Ok (N (if list_eq_dec ascii_dec (t_text c) (txt "\bookpart") then KBookPart else KBook) [c; o] l [])) /\
  (header arity act create_music build_tree handle_assignments k (open_block [c; o] body) = Ok (N k [c; o] (handle_assignments (build_tree (read_common arity act body))) [])) /\
  (layout arity act create_music build_tree handle_assignments k (open_block [c; o] body) = let! l := music in Ok (N k [c; o] (handle_assignments l) [])) /\
  (score arity act create_music build_tree handle_assignments (open_block [c; o] body) = let! l := music in Ok (N KScore [c; o] l [])) /\
  (musiclist create_music (open_block [o] body) = let! l := music in Ok (N (if list_eq_dec ascii_dec (t_text o) (txt "{") then KMusicList else KSimultaneous) [o] l [])) /\
  (chord create_music (open_block [o] body) = let! l := music in Ok (N KChord [] [N KChordBody [o] l []] [])) /\
  (schemelily create_music k (open_block [o] body) = let! l := music in Ok (N k [o] l [])) /\
  (markuplist arity (open_block [o] body) = Ok (N KMarkupList [o] (read_markup_arguments arity body) [])).
Proof.
  intros c o body k H H1 H2 H3 H4 music. assert (NE : forall l, open_block [o] l <> []) by discriminate. repeat split.
  - unfold book. cbn [first_is open_block map app bindr item_is]. change (Tok c :: Tok o :: body) with (open_block [c; o] body). rewrite create_open by exact H. destruct (list_eq_dec _ _ _); reflexivity.
  - unfold header. rewrite create_open by exact H. reflexivity.
  - unfold layout. rewrite create_open by exact H. reflexivity.
  - unfold score. rewrite pop_open by (discriminate || exact H). cbn [bindr]. rewrite create_open by exact H. reflexivity.
  - unfold musiclist. rewrite !last_open by auto. cbn [bindr orb open_block map app first_is skipn item_is]. fold music. destruct music; cbn [bindr]; [|reflexivity]. destruct (list_eq_dec _ _ _); reflexivity.
  - unfold chord. rewrite pop_open by auto. reflexivity.
  - unfold schemelily. rewrite pop_open by auto. reflexivity.
  - unfold markuplist. rewrite pop_open by auto. reflexivity.
Qed.
(** Finding: a score does not know its closing brace (it is taken off twice). *)
Theorem C91_score_finding : forall c o body close, has_text "}" close -> not_closed "}" (open_block [c; o] body) ->
  score arity act create_music build_tree handle_assignments (block [c; o] body close) = let! l := create_music body in Ok (N KScore [c; o] l []).
Proof. intros c o body close H N. unfold score, block. rewrite app_assoc, pop_closed by exact H. cbn [bindr]. change (map Tok [c; o] ++ body) with (open_block [c; o] body). rewrite create_open by exact N. reflexivity. Qed.
(** Tokens: when the contents keep all their tokens, the block does; a score has lost the last one. *)
Theorem C91_tokens : forall c o body close k n, has_text "}" close -> not_closed "}" (open_block [c; o] body) ->
  (forall l ns, create_music l = Ok ns -> flat_map toks ns = flat_map item_toks l) -> (forall l, flat_map toks (handle_assignments l) = flat_map toks l) ->
  (book arity act create_music build_tree handle_assignments (block [c; o] body close) = Ok n \/ layout arity act create_music build_tree handle_assignments k (block [c; o] body close) = Ok n \/ layout_context arity act create_music build_tree handle_assignments (block [c; o] body close) = Ok n ->
     toks n = flat_map item_toks (block [c; o] body close)) /\
  (score arity act create_music build_tree handle_assignments (block [c; o] body close) = Ok n -> toks n ++ [close] = flat_map item_toks (block [c; o] body close)).
Proof.
  intros c o body close k n H NC KM KH. destruct (C91_closed_partial c o body close k H) as (A & _ & B & C & _). rewrite A, B, C, C91_score_finding by assumption. unfold block. cbn [map app flat_map item_toks]. rewrite !flat_map_app. cbn [flat_map item_toks app].
  destruct (create_music body) as [l|e] eqn:E; cbn [bindr]; [|split; [intros [X|[X|X]]|intros X]; discriminate]. rewrite <- (KM _ _ E). split.
  - intros [X|[X|X]]; injection X as <-; cbn [toks app]; rewrite ?KH; reflexivity.
  - intros X. injection X as <-. cbn [toks app]. rewrite app_nil_r. reflexivity.
Qed.
End C91.
Print Assumptions C91_closed_partial. Print Assumptions C91_brackets. Print Assumptions C91_open. Print Assumptions C91_score_finding. Print Assumptions C91_tokens.
Example C91_witness :
  let c := tk' 0 "\book" (AOther 0) in let o := tk' 1 "{" (AOther 0) in let x := tk' 2 "}" (AOther 0) in let n := N KMarkupWord [tk' 5 "x" AText] [] [] in
  let music := fun l => Ok (flat_map (fun i => match i with Ctx _ (OElem n) => [n] | _ => [] end) l) in
  book some_arity (fun _ => None) music (fun l => l) (fun l => l) (block [c; o] [Ctx (txt "x") (OElem n)] x) = Ok (N KBook [c; o] [n] [x]) /\
  score some_arity (fun _ => None) music (fun l => l) (fun l => l) (block [c; o] [Ctx (txt "x") (OElem n)] x) = Ok (N KScore [c; o] [n] []) /\
  not_closed "}" (open_block [c; o] [Ctx (txt "x") (OElem n)]).
Proof.
  split; [reflexivity|]. split; [reflexivity|]. intros l t E. destruct l as [|a [|b [|d l]]]; try discriminate E. destruct l; discriminate E.
Qed.

(** ** C92 *)
(** Chord modifiers: every qualifier, step (with its alteration), dot and comment becomes an element, in the same order. *)
Theorem C92_modifiers : forall ms, Forall modifier_ok ms -> chord_modifier (flat_map modifier_items ms) = Ok (map modifier_node ms).
Proof.
  induction 1 as [|m ms H _ IH]; [reflexivity|]. destruct m as [t|t|t alt|t|name n]; cbn [modifier_ok] in H; cbn [flat_map modifier_items app chord_modifier map modifier_node].
  - rewrite H, IH. reflexivity.
  - destruct H as [-> H]. destruct (t_group t) as [[|g]|]; [congruence|..]; rewrite IH; reflexivity.
  - destruct H as [-> ->]. rewrite IH. reflexivity.
  - rewrite H, IH. reflexivity.
  - rewrite IH. reflexivity.
Qed.
(** Whatever the items are, the elements have tokens of the items, in order and each once. *)
Lemma sub_app {A} (h l l' : list A) : sublist l l' -> sublist (h ++ l) (h ++ l').
Proof. induction h; intros H; [exact H|]. constructor. auto. Qed.
Theorem C92_order : forall items ns, chord_modifier items = Ok ns -> sublist (flat_map toks ns) (flat_map item_toks items).
Proof.
  intros items. remember (length items) as k eqn:EK. revert items EK. induction k as [k IH] using lt_wf_ind. intros items -> ns E.
  assert (R : forall r ms, length r < length items -> chord_modifier r = Ok ms -> sublist (flat_map toks ms) (flat_map item_toks r)) by (intros r ms L; apply (IH (length r) L r eq_refl)). clear IH.
  destruct items as [|[t|nm [n|l|l|]] r]; cbn [chord_modifier] in E; try discriminate; cbn [flat_map item_toks].
  - injection E as <-. constructor.
  - cbn [app].
    assert (D : forall k ns, (let! l := chord_modifier r in Ok (N k [t] [] [] :: l)) = Ok ns -> sublist (flat_map toks ns) (t :: flat_map item_toks r)).
    { intros k ns' E'. destruct (chord_modifier r) as [l|] eqn:ER; [|discriminate]. injection E' as <-. cbn. constructor. apply R; [cbn; lia|exact ER]. }
    destruct (t_action t); try (apply sub_drop, R; [cbn; lia|exact E]); try exact (D _ _ E).
    destruct (t_group t) as [[|g]|]; try exact (D _ _ E). destruct r as [|[u|] r]; try discriminate. destruct (chord_modifier r) as [l|] eqn:ER; [|discriminate]. injection E as <-. cbn. do 2 constructor. apply R; [cbn; lia|exact ER].
  - destruct (chord_modifier r) as [l|] eqn:ER; [|discriminate]. injection E as <-. cbn [flat_map]. apply sub_app. apply R; [cbn; lia|exact ER].
Qed.
Print Assumptions C92_modifiers. Print Assumptions C92_order.
(** A list is its only element, or a List with all the elements; an identifier has its name and the elements after it. *)
Theorem C92_list : forall ident first items,
  let elements := flat_map (fun i => match i with Tok t => [ident t] | Ctx _ (OElem n) => [n] | _ => [] end) items in
  (forall n, elements = [n] -> read_list ident items = n) /\ (length elements <> 1 -> read_list ident items = N KList [] elements []) /\
  identifier_ref ident (Tok first :: items) = N KIdentifierRef [first] elements [].
Proof.
  intros ident first items elements. unfold read_list, identifier_ref, list_nodes. fold elements. split; [intros n ->; reflexivity|]. split; [|reflexivity]. destruct elements as [|a [|b l]]; cbn; try reflexivity; lia.
Qed.
(** A duration: its dots, and the last scaling. *)
Theorem C92_duration : forall dots name n others, Forall (has_text ".") dots -> Forall (fun i => match i with Tok t => ~ has_text "." t | Ctx c _ => c <> txt "duration_scaling" end) others ->
  duration (map Tok dots ++ others) = (dots, None) /\ (name = txt "duration_scaling" -> duration (map Tok dots ++ Ctx name (OElem n) :: others) = (dots, Some n)).
Proof.
  intros dots name n others D O.
  assert (DT : forall l, flat_map (fun i => if item_is "." i then tokens [i] else []) (map Tok dots ++ l) = dots ++ flat_map (fun i => if item_is "." i then tokens [i] else []) l).
  { intros l. induction D as [|t dots H _ IH]; [reflexivity|]. cbn [map app flat_map]. rewrite (proj2 (item_is_text "." t) H), IH. reflexivity. }
  assert (OT : flat_map (fun i => if item_is "." i then tokens [i] else []) others = []).
  { induction O as [|i l H _ IH]; [reflexivity|]. cbn [flat_map]. rewrite IH. destruct i as [t|]; [|reflexivity]. rewrite (proj2 (item_is_not "." t) H). reflexivity. }
  set (f := fun (s : option node) i => match i with Ctx nm (OElem n) => if list_eq_dec ascii_dec nm (txt "duration_scaling") then Some n else s | _ => s end).
  assert (FT : forall l s, fold_left f (map Tok l) s = s) by (induction l as [|t l IH]; [reflexivity|apply IH]).
  assert (FO : forall s, fold_left f others s = s).
  { clear OT. induction O as [|i l H _ IH]; intros s; [reflexivity|]. cbn [fold_left]. rewrite IH. destruct i as [t|c [m|m|m|]]; unfold f; try reflexivity. destruct (list_eq_dec _ _ _); congruence. }
  unfold duration. fold f. split; [|intros ->]; f_equal.
  - rewrite DT, OT. apply app_nil_r.
  - rewrite fold_left_app, FT. apply FO.
  - rewrite DT. cbn [flat_map item_is app]. rewrite OT. apply app_nil_r.
  - rewrite fold_left_app, FT. cbn [fold_left]. rewrite FO. unfold f. destruct (list_eq_dec _ _ _); congruence.
Qed.
Print Assumptions C92_list. Print Assumptions C92_duration.
Example C92_witness :
  let five := Token 1 (txt "5") ANumber (Some 0) in let plus := tk' 2 "+" (AOther 0) in
  chord_modifier [tk 0 "maj" ASymbol; Tok five; Tok plus; tk 3 "." ADot; tk 4 "9" ANumber] =
    Ok [N KQualifier [tk' 0 "maj" ASymbol] [] []; N KStep [five] [N KAlteration [plus] [] []] []; N KSeparator [tk' 3 "." ADot] [] []; N KStep [tk' 4 "9" ANumber] [] []].
Proof. reflexivity. Qed.

(** ** C93 *)
Section C93.
Variables (create_music : list item -> res (list node)) (handle_assignments : list node -> list node) (is_tag is_end : list item -> bool).
(** LilyPond in HTML: in the tag itself, or between two tags. *)
(** Missing for the full claim: unfinished text, where reading fails (C93_html_finding). *)
Theorem C93_html_partial : forall body l, create_music body = Ok l ->
  (forall t, has_text "/>" t -> html_lilypond_tag create_music handle_assignments is_tag (body ++ [Tok t]) = Ok ([N KDocument [] (handle_assignments l) []], [t])) /\
  (forall a b c, ~ has_text "/>" c -> is_tag (body ++ [Tok a; Tok b; Tok c]) = true ->
     html_lilypond_tag create_music handle_assignments is_tag (body ++ [Tok a; Tok b; Tok c]) = Ok ([N KDocument [] (handle_assignments l) []; N KCloseTag [a] [N KTagName [b] [] []] [c]], [])).
Proof.
  intros body l E. split.
  - intros t H. unfold html_lilypond_tag. destruct (body ++ [Tok t]) as [|i r] eqn:EB; [destruct body; discriminate|]. rewrite <- EB. rewrite last_closed, (proj2 (item_is_text "/>" t) H). cbn [bindr]. rewrite removelast_last, E. cbn [bindr].
    rewrite app_length. cbn [List.length]. replace (length body + 1 - 1) with (length body) by lia. rewrite skipn_app, skipn_all, Nat.sub_diag. reflexivity.
  - intros a b c H T. unfold html_lilypond_tag. destruct (body ++ [Tok a; Tok b; Tok c]) as [|i r] eqn:EB; [destruct body; discriminate|]. rewrite <- EB in *.
    assert (LC : last_is "/>" (body ++ [Tok a; Tok b; Tok c]) = Ok false). { change [Tok a; Tok b; Tok c] with ([Tok a; Tok b] ++ [Tok c]). rewrite app_assoc, last_closed. f_equal. apply item_is_not, H. }
    rewrite LC, T. cbn [bindr]. rewrite app_length. cbn [List.length].
    replace (length body + 3 - 3) with (length body) by lia. replace (length body + 3 - 2) with (length body + 1) by lia. replace (length body + 3 - 1) with (length body + 2) by lia.
    assert (SK : forall k, skipn (length body + k) (body ++ [Tok a; Tok b; Tok c]) = skipn k [Tok a; Tok b; Tok c]). { intros k. rewrite skipn_app, skipn_all2 by lia. cbn [app]. f_equal. lia. }
    pose proof (SK 0) as S0. rewrite Nat.add_0_r in S0. rewrite S0, !SK. rewrite firstn_app, firstn_all, Nat.sub_diag. cbn [firstn skipn tokens flat_map app]. rewrite app_nil_r, E. reflexivity.
Qed.
(** Finding: without the end of the tag (the text ends before it) the transform fails. *)
Theorem C93_html_finding : forall body l, create_music body = Ok l -> not_closed "/>" body -> is_tag body = false -> html_lilypond_tag create_music handle_assignments is_tag body = Err UnboundLocalError.
Proof. intros body l E N T. unfold html_lilypond_tag. destruct body as [|i r]; [|rewrite last_open by (discriminate || exact N); cbn [bindr]; rewrite T]; cbn [bindr]; rewrite E; reflexivity. Qed.
(** LilyPond in LaTeX: an environment, the short form (closed by a brace of LaTeX, not by one of LilyPond), or text that is not finished. *)
(** Missing for the full claim: text that ends after the options, where reading fails (C93_latex_finding). *)
Theorem C93_latex_partial : forall body l, create_music body = Ok l ->
  (forall a b c d, is_end (body ++ [Tok a; Tok b; Tok c; Tok d]) = true ->
     latex_lilypond_environment create_music handle_assignments is_end (body ++ [Tok a; Tok b; Tok c; Tok d]) = Ok ([N KDocument [] (handle_assignments l) []; N KCommand [a] [N KEnvironmentName [b; c; d] [] []] []], [])) /\
  (forall t, is_end (body ++ [Tok t]) = false -> has_text "}" t -> t_action t = ABrace ->
     latex_lilypond_environment create_music handle_assignments is_end (body ++ [Tok t]) = Ok ([N KDocument [] (handle_assignments l) []], [t])) /\
  (forall a t, body = a ++ [Tok t] -> is_end body = false -> t_action t <> ABrace ->
     latex_lilypond_environment create_music handle_assignments is_end body = Ok ([N KDocument [] (handle_assignments l) []], [])) /\
  (is_end body = false -> not_closed "}" body -> body <> [] -> latex_lilypond_environment create_music handle_assignments is_end body = Ok ([N KDocument [] (handle_assignments l) []], [])).
Proof.
  intros body l E. split; [|split; [|split]].
  - intros a b c d H. unfold latex_lilypond_environment. rewrite H. cbn [bindr]. rewrite app_length. cbn [List.length]. replace (length body + 4 - 4) with (length body) by lia. replace (length body + 4 - 3) with (length body + 1) by lia.
    assert (SK : forall k, skipn (length body + k) (body ++ [Tok a; Tok b; Tok c; Tok d]) = skipn k [Tok a; Tok b; Tok c; Tok d]). { intros k. rewrite skipn_app, skipn_all2 by lia. cbn [app]. f_equal. lia. }
    pose proof (SK 0) as S0. rewrite Nat.add_0_r in S0. rewrite S0, !SK. rewrite firstn_app, firstn_all, Nat.sub_diag. cbn [firstn skipn tokens flat_map app]. rewrite app_nil_r, E. reflexivity.
  - intros t H T A. unfold latex_lilypond_environment. rewrite H, rev_app_distr. cbn [rev app]. rewrite (proj2 (item_is_text "}" t) T), A. cbn [andb bindr]. rewrite removelast_last, E. reflexivity.
  - intros a t -> H A. unfold latex_lilypond_environment. rewrite H, rev_app_distr. cbn [rev app].
    replace (match t_action t with ABrace => true | _ => false end) with false by (destruct (t_action t); congruence). rewrite andb_false_r. cbn [bindr]. rewrite E. reflexivity.
  - intros H NC NE. unfold latex_lilypond_environment. rewrite H. pose proof (last_open "}" body NE NC) as L. unfold last_is in L. destruct (rev body) as [|i r]; [discriminate|]. injection L as L. rewrite L. cbn [andb bindr]. rewrite E. reflexivity.
Qed.
(** Finding: when the text ends right after the options, the transform fails. *)
Theorem C93_latex_finding : is_end [] = false -> latex_lilypond_environment create_music handle_assignments is_end [] = Err IndexError.
Proof. intros H. unfold latex_lilypond_environment. rewrite H. reflexivity. Qed.
End C93.
Print Assumptions C93_html_partial. Print Assumptions C93_html_finding. Print Assumptions C93_latex_partial. Print Assumptions C93_latex_finding.
Example C93_witness :
  let music := fun l : list item => Ok (map (fun _ => N (KOther 0) [] [] []) l) in let slash := tk' 1 "/>" (AOther 0) in
  html_lilypond_tag music (fun l => l) (fun _ => false) [tk 0 "c" (AOther 0); Tok slash] = Ok ([N KDocument [] [N (KOther 0) [] [] []] []], [slash]) /\
  html_lilypond_tag music (fun l => l) (fun _ => false) [tk 0 "c" (AOther 0)] = Err UnboundLocalError /\
  latex_lilypond_environment music (fun l => l) (fun _ => false) [tk 0 "c" (AOther 0); tk 1 "}" ABrace] = Ok ([N KDocument [] [N (KOther 0) [] [] []] []], [tk' 1 "}" ABrace]).
Proof. repeat split. Qed.
