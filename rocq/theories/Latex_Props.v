(** C100: reading LaTeX. *)
From Coq Require Import String Ascii List Arith PeanoNat Bool Lia.
From Verif Require Import Base Latex_Model Latex_Spec.
Import ListNotations.
Local Open Scope string_scope.
Local Open Scope list_scope.
Open Scope nat_scope.

Scheme contents_mind := Minimality for contents Sort Prop
  with block_mind := Minimality for block Sort Prop
  with arguments_mind := Minimality for arguments Sort Prop
  with brace_block_mind := Minimality for brace_block Sort Prop
  with lily_arguments_mind := Minimality for lily_arguments Sort Prop
  with begins_mind := Minimality for begins Sort Prop
  with body_mind := Minimality for body Sort Prop
  with options_after_mind := Minimality for options_after Sort Prop
  with option_list_mind := Minimality for option_list Sort Prop.
Combined Scheme grammar_mind from contents_mind, block_mind, arguments_mind, brace_block_mind, lily_arguments_mind, begins_mind, body_mind, options_after_mind, option_list_mind.

Section C100.
Variable below : bool.
Notation transform := (transform below).
Notation transforms := (transforms below).
Notation common := (common below).
Notation matches := (matches below).

Lemma is_text_spec t s : is_text t s = true <-> reads t s.
Proof. unfold is_text, reads. destruct (list_eq_dec _ _ _); split; auto; discriminate. Qed.
Lemma is_text_no t s : ~ reads t s -> is_text t s = false.
Proof. intros H. destruct (is_text t s) eqn:E; [apply is_text_spec in E; contradiction|reflexivity]. Qed.
Lemma all_eq k : (fix all (l : list tree) : res (list item) := match l with [] => Ok [] | t :: r => let! i := transform t in let! is := all r in Ok (i :: is) end) k = transforms k.
Proof. induction k as [|t k IH]; [reflexivity|]. cbn. rewrite IH. reflexivity. Qed.
Lemma transform_cx l kids : transform (TCx l kids) = let! items := transforms kids in method below l items.
Proof. cbn. rewrite all_eq. reflexivity. Qed.
Lemma transform_lily o m t : transform (TLily o m t) = let! items := transforms o in Ok (ILily (lily_options items) m t).
Proof. cbn. rewrite all_eq. reflexivity. Qed.
Lemma transforms_tokens ts : transforms (map TTok ts) = Ok (map Tok ts).
Proof. induction ts as [|t ts IH]; [reflexivity|]. cbn. rewrite IH. reflexivity. Qed.
Lemma transforms_app a b x y : transforms a = Ok x -> transforms b = Ok y -> transforms (a ++ b) = Ok (x ++ y).
Proof.
  revert x. induction a as [|t a IH]; intros x A B; cbn in *; [injection A as <-; exact B|]. destruct (transform t) as [i|]; [|discriminate]. cbn [bindr] in *. destruct (transforms a) as [is|]; [|discriminate]. injection A as <-.
  rewrite (IH is eq_refl B). reflexivity.
Qed.
Lemma transforms_cons t r i is : transform t = Ok i -> transforms r = Ok is -> transforms (t :: r) = Ok (i :: is).
Proof. intros A B. cbn. rewrite A. cbn. rewrite B. reflexivity. Qed.
Lemma tokens_map ts : tokens (map Tok ts) = ts.
Proof. induction ts as [|t ts IH]; [reflexivity|]. cbn. f_equal. exact IH. Qed.

(** what kind of item comes of a tree *)
Definition kind (t : tree) (i : item) : Prop :=
  match t with
  | TTok t => i = Tok t
  | TUnknown _ => i = IUnknown
  | TLily _ m tl => exists o, i = ILily o m tl
  | TCx LBrace _ => exists n, i = INode true n
  | TCx (LMath | LComment) _ => exists n, i = INode false n
  | TCx LOption _ => exists o h, i = IOption o h
  | TCx LEnvironmentOption _ => exists o n, i = IEnvOption o n
  | TCx (LEnvironment | LEnvironmentMath) _ => exists ns, i = IEnvironment ns
  end.
Lemma transform_kind t i : transform t = Ok i -> kind t i.
Proof.
  destruct t as [t|l k|o m tl|us]; intros E.
  - injection E as <-. reflexivity.
  - rewrite transform_cx in E. destruct (transforms k) as [is|]; [|discriminate]. cbn [bindr] in E.
    destruct l; cbn [method] in E;
      [destruct (brace below is)|destruct (math below is)| |destruct (option_method below is)|destruct (environment_option below is)|destruct (environment below is)|destruct (environment below is)]; cbn [bindr] in E; try discriminate; injection E as <-; cbn; eauto.
  - rewrite transform_lily in E. destruct (transforms o); [|discriminate]. injection E as <-. cbn. eauto.
  - injection E as <-. reflexivity.
Qed.
Lemma transforms_kind ts is : transforms ts = Ok is -> Forall2 kind ts is.
Proof.
  revert is. induction ts as [|t ts IH]; intros is E; cbn in E; [injection E as <-; constructor|]. destruct (transform t) as [i|] eqn:T; [|discriminate]. cbn [bindr] in E. destruct (transforms ts) as [is'|] eqn:TS; [|discriminate]. injection E as <-.
  constructor; [apply transform_kind; exact T|apply IH; reflexivity].
Qed.
(** from an item back to the tree *)
Lemma kind_tok t x : kind t (Tok x) -> t = TTok x.
Proof. destruct t as [t|[]|?|?]; cbn; intros H; try (destruct H as (? & H); discriminate); try (destruct H as (? & ? & H); discriminate); try discriminate. injection H as <-. reflexivity. Qed.
Lemma kind_brace t n : kind t (INode true n) -> exists k, t = TCx LBrace k.
Proof. destruct t as [t|[]|?|?]; cbn; intros H; try (destruct H as (? & H); discriminate); try (destruct H as (? & ? & H); discriminate); try discriminate. eauto. Qed.
Lemma kind_option t o h : kind t (IOption o h) -> exists k, t = TCx LOption k.
Proof. destruct t as [t|[]|?|?]; cbn; intros H; try (destruct H as (? & H); discriminate); try (destruct H as (? & ? & H); discriminate); try discriminate. eauto. Qed.
Lemma kind_env_option t o h : kind t (IEnvOption o h) -> exists k, t = TCx LEnvironmentOption k.
Proof. destruct t as [t|[]|?|?]; cbn; intros H; try (destruct H as (? & H); discriminate); try (destruct H as (? & ? & H); discriminate); try discriminate. eauto. Qed.
Lemma kind_lily t o m tl : kind t (ILily o m tl) -> exists o', t = TLily o' m tl.
Proof. destruct t as [t|[]|?|?]; cbn; intros H; try (destruct H as (? & H); discriminate); try (destruct H as (? & ? & H); discriminate); try discriminate. destruct H as (? & H). injection H as _ <- <-. eauto. Qed.

(** actions *)
Lemma matches_refl a : matches a a = true.
Proof. unfold Latex_Model.matches. destruct a; cbn; try reflexivity. rewrite Nat.eqb_refl. reflexivity. Qed.
Lemma matches_tag a : matches a ATag = true -> a = ATag.
Proof. unfold Latex_Model.matches. destruct a, below; cbn; congruence. Qed.
Lemma matches_brace a : matches a ABrace = true -> a = ABrace.
Proof. unfold Latex_Model.matches. destruct a, below; cbn; congruence. Qed.
Lemma matches_bracket a : matches a ABracket = true -> a = ABracket.
Proof. unfold Latex_Model.matches. destruct a, below; cbn; congruence. Qed.
Lemma matches_builtin a : matches a ABuiltin = true -> a = ABuiltin.
Proof. unfold Latex_Model.matches. destruct a, below; cbn; congruence. Qed.
Lemma names_match a b c : names a b c -> matches (t_action a) ADelimiter && matches (t_action b) ATag && matches (t_action c) ADelimiter = true.
Proof. intros (A & B & C). rewrite A, B, C, !matches_refl. reflexivity. Qed.

(** pop *)
Lemma pop_close s is c : reads c s -> pop s (is ++ [Tok c]) = (is, [c]).
Proof. intros R. unfold pop. rewrite rev_app_distr. cbn [rev app]. rewrite (proj2 (is_text_spec _ _) R), rev_involutive. reflexivity. Qed.
Lemma rev_last {A} (l : list A) x r : rev l = x :: r -> l = rev r ++ [x].
Proof. intros E. rewrite <- (rev_involutive l), E. reflexivity. Qed.
Lemma kinds_last ts is a x : Forall2 kind ts is -> is = a ++ [Tok x] -> exists p, ts = p ++ [TTok x].
Proof.
  intros F ->. apply Forall2_app_inv_r in F. destruct F as (p & q & _ & F & ->). inversion F as [|t i q' ? K F']; subst. inversion F'; subst. rewrite (kind_tok _ _ K). eauto.
Qed.
Lemma pop_open s ts is : Forall2 kind ts is -> (forall p c, ts = p ++ [TTok c] -> ~ reads c s) -> pop s is = (is, []).
Proof.
  intros F H. unfold pop. destruct (rev is) as [|[t|?|?|?|?|?|] r] eqn:E; try reflexivity. apply rev_last in E. destruct (kinds_last _ _ _ _ F E) as (p & EP). rewrite (is_text_no _ _ (H _ _ EP)). reflexivity.
Qed.
(** index *)
Lemma item_is_no s t i : kind t i -> (forall x, t = TTok x -> ~ reads x s) -> item_is s i = false.
Proof. intros K H. destruct i as [x|?|?|?|?|?|]; try reflexivity. cbn. apply is_text_no, H, kind_tok, K. Qed.
Lemma index_none s ts is : Forall2 kind ts is -> without s ts -> index s is = None.
Proof.
  induction 1 as [|t i ts is K F IH]; intros W; [reflexivity|]. cbn [index]. rewrite (item_is_no s t i K); [|intros x ->; apply W; left; reflexivity].
  rewrite IH; [reflexivity|]. intros x X. apply W. right. exact X.
Qed.
Lemma index_some s ts is c r : Forall2 kind ts is -> without s ts -> reads c s -> index s (is ++ Tok c :: r) = Some (is, c, r).
Proof.
  intros F W R. induction F as [|t i ts is K F IH]; cbn [index app item_is]; [rewrite (proj2 (is_text_spec _ _) R); reflexivity|].
  rewrite (item_is_no s t i K); [|intros x ->; apply W; left; reflexivity].
  rewrite IH; [reflexivity|]. intros x X. apply W. right. exact X.
Qed.
(** text *)
Lemma text_action t : text_token t -> forall fuel text r, common (S fuel) text (Tok t :: r) = common fuel (text ++ [t]) r.
Proof. intros (A & B) fuel text r. cbn [Latex_Model.common]. destruct (t_action t); try reflexivity; contradiction. Qed.
Lemma text_reads w ts us : text_of w ts us -> exists is, transforms ts = Ok is /\ forall text r fuel, length is + length r < fuel -> exists f, length r < f /\ common fuel text (is ++ r) = common f (text ++ us) r.
Proof.
  induction 1 as [|t r ts T H (is & TI & G)|us r ts W H (is & TI & G)].
  - exists []. split; [reflexivity|]. intros text r fuel L. exists fuel. split; [exact L|]. rewrite app_nil_r. reflexivity.
  - exists (Tok t :: is). split; [apply transforms_cons; [reflexivity|exact TI]|]. intros text r' fuel L. cbn [length] in L. destruct fuel as [|fuel]; [lia|]. cbn [app]. rewrite (text_action _ T).
    destruct (G (text ++ [t]) r' fuel) as (f & LF & E); [lia|]. exists f. split; [exact LF|]. rewrite E, <- app_assoc. reflexivity.
  - exists (IUnknown :: is). split; [apply transforms_cons; [reflexivity|exact TI]|]. intros text r' fuel L. cbn [length] in L. destruct fuel as [|fuel]; [lia|]. cbn [app Latex_Model.common]. apply G. lia.
Qed.
Lemma text_flush t us r is fuel : text_ends r -> transforms r = Ok is -> common fuel (t :: us) is = let! ns := common fuel [] is in Ok (N KText (t :: us) [] [] :: ns).
Proof.
  intros T E. destruct fuel as [|fuel]; [reflexivity|]. pose proof (transforms_kind _ _ E) as F. destruct F as [|x i r is K F]; [reflexivity|].
  destruct x as [x|[]|?|?]; cbn in T, K; try contradiction.
  - subst i. cbn [Latex_Model.common]. destruct (t_action x) eqn:A; try (exfalso; apply T; split; congruence).
    + destruct (is_text x "\lilypond"); [destruct (lilypond_command below x is) as [[n r']|]|destruct (read_environment below x is) as [[n r']|]]; cbn [bindr]; try reflexivity; destruct (common fuel [] r'); reflexivity.
    + destruct (command below x is) as [[n r']|]; cbn [bindr]; try reflexivity; destruct (common fuel [] r'); reflexivity.
  - destruct K as (n & ->). cbn [Latex_Model.common]. destruct (common fuel [] is); reflexivity.
  - destruct K as (n & ->). cbn [Latex_Model.common]. destruct (common fuel [] is); reflexivity.
  - destruct K as (n & ->). cbn [Latex_Model.common]. destruct (common fuel [] is); reflexivity.
Qed.

(** the readings *)
Definition R_contents ts ns := exists is, transforms ts = Ok is /\ forall fuel, length is < fuel -> common fuel [] is = Ok ns.
Definition R_block t n := exists b, transform t = Ok (INode b n).
Definition R_arguments a args r := forall ri, transforms r = Ok ri -> exists ai, transforms a = Ok ai /\ forall t, command below t (ai ++ ri) = Ok (N KCommand [t] args [], ri).
Definition R_brace t n := transform t = Ok (INode true n).
Definition R_lily a args r := forall ri, transforms r = Ok ri -> exists ai, transforms a = Ok ai /\ forall t, lilypond_command below t (ai ++ ri) = Ok (N KCommand [t] args [], ri).
Definition R_begins a args r := forall ri, transforms r = Ok ri -> exists ai, transforms a = Ok ai /\ environment_begin below (ai ++ ri) = Ok (args, ri).
Definition R_body b opts inner r := forall ri, transforms r = Ok ri -> exists bi, transforms b = Ok bi /\
  forall t args, environment_body t args (bi ++ ri) = Ok (N KEnvironment [] (N KCommand [t] (args ++ opts) [] :: inner) [], ri).
Definition R_after o kids ns := exists is os, transforms kids = Ok is /\ option_method below is = Ok (os, []) /\ get_options o os = Ok ns /\
  forall b, t_action b = ABrace -> option_method below (is ++ [Tok b]) = Ok (os, [b]).
Definition R_list head kids ns := exists is, transforms kids = Ok is /\ forall fuel, length is < fuel ->
  (head <> [] -> options below fuel head is = Ok (map Whole ns)) /\
  ((exists c, In (TTok c) kids /\ reads c "]") -> exists inner tl rest, ns = N KOption head inner tl :: rest /\ options below fuel [] is = Ok (Part inner tl :: map Whole rest)).

Lemma all_of ts ns is : (forall fuel, length is < fuel -> common fuel [] is = Ok ns) -> transforms ts = Ok is -> all_common below is = Ok ns.
Proof. intros G _. apply G. lia. Qed.
Lemma elements_whole ns : elements (map Whole ns) = Ok ns.
Proof. induction ns as [|n ns IH]; [reflexivity|]. cbn. rewrite IH. reflexivity. Qed.
(** option: the trailing brace *)
Lemma method_open kids is os : transforms kids = Ok is -> ~ opens kids -> ~ last_brace kids -> options below (S (length is)) [] is = Ok os ->
  option_method below is = Ok (os, []) /\ forall b, t_action b = ABrace -> option_method below (is ++ [Tok b]) = Ok (os, [b]).
Proof.
  intros T NO NB O. pose proof (transforms_kind _ _ T) as F.
  assert (H : match is with Tok t :: r => if matches (t_action t) ABracket && is_text t "[" then options below (S (length r)) [t] r else options below (S (length is)) [] is | _ => options below (S (length is)) [] is end = Ok os).
  { destruct is as [|[t|?|?|?|?|?|] r]; try exact O. destruct (matches (t_action t) ABracket && is_text t "[") eqn:E; [|exact O]. exfalso. apply andb_true_iff in E. destruct E as (E1 & E2).
    inversion F as [|x i ts is' K F']; subst. rewrite (kind_tok _ _ K) in *. apply NO. exists t, ts. split; [reflexivity|]. split; [apply matches_bracket; exact E1|apply is_text_spec; exact E2]. }
  split.
  - unfold option_method. destruct (rev is) as [|[t|?|?|?|?|?|] r] eqn:E; try (rewrite H; reflexivity).
    destruct (matches (t_action t) ABrace) eqn:M; [|rewrite H; reflexivity]. exfalso. apply NB. destruct (kinds_last _ _ _ _ F (rev_last _ _ _ E)) as (p & EP). exists p, t. split; [exact EP|apply matches_brace; exact M].
  - intros b B. unfold option_method. rewrite rev_app_distr. cbn [rev app]. rewrite B, matches_refl, rev_involutive, H. reflexivity.
Qed.
Lemma method_bracket o is ns kids : t_action o = ABracket -> reads o "[" -> transforms kids = Ok is -> ~ last_brace kids -> options below (S (length is)) [o] is = Ok ns ->
  option_method below (Tok o :: is) = Ok (ns, []).
Proof.
  intros A R T NB O. pose proof (transforms_kind _ _ T) as F.
  assert (H : (if matches (t_action o) ABracket && is_text o "[" then options below (S (length is)) [o] is else options below (S (length (Tok o :: is))) [] (Tok o :: is)) = Ok ns) by (rewrite A, matches_refl, (proj2 (is_text_spec _ _) R); exact O).
  unfold option_method. destruct (rev (Tok o :: is)) as [|[t|?|?|?|?|?|] r] eqn:E; try (rewrite H; reflexivity).
  destruct (matches (t_action t) ABrace) eqn:M; [|rewrite H; reflexivity]. exfalso. apply matches_brace in M. apply rev_last in E.
  destruct (rev r) as [|y r'] eqn:ER; [injection E as <- _; congruence|]. injection E as _ E. apply NB. destruct (kinds_last _ _ _ _ F E) as (p & EP). exists p, t. split; [exact EP|exact M].
Qed.
Lemma begin_other is : (forall a b c r, is = Tok a :: Tok b :: Tok c :: r -> t_action b <> ATag) -> (forall a o n r, is <> Tok a :: IEnvOption o n :: r) -> environment_begin below is = Ok ([], is).
Proof.
  intros H K. unfold environment_begin. destruct is as [|[a|?|?|?|?|?|] [|[b|?|?|o n|?|?|] [|[c|?|?|?|?|?|] r]]]; try reflexivity.
  - destruct (matches (t_action b) ATag) eqn:M; [apply matches_tag in M; exfalso; eapply H; [reflexivity|exact M]|]. rewrite andb_false_r. reflexivity.
  - exfalso. eapply K. reflexivity.
  - exfalso. eapply K. reflexivity.
  - exfalso. eapply K. reflexivity.
  - exfalso. eapply K. reflexivity.
  - exfalso. eapply K. reflexivity.
  - exfalso. eapply K. reflexivity.
  - exfalso. eapply K. reflexivity.
  - exfalso. eapply K. reflexivity.
Qed.
Lemma env_end ts is ns t a b c : transforms ts = Ok is -> (forall fuel, length is < fuel -> common fuel [] is = Ok ns) -> t_action t = ABuiltin -> names a b c ->
  environment below (is ++ map Tok [t; a; b; c]) = Ok (ns ++ [N KCommand [t] [name_of a b c] []]).
Proof.
  intros T G B NM. unfold environment. rewrite rev_app_distr. cbn [map rev app]. rewrite B, matches_refl. cbn [andb]. rewrite (names_match _ _ _ NM), rev_involutive, (all_of _ _ _ G T). reflexivity.
Qed.
Lemma kinds_last3 ts is p a b c : Forall2 kind ts is -> rev is = Tok c :: Tok b :: Tok a :: p -> exists q, ts = q ++ map TTok [a; b; c].
Proof.
  intros F E. assert (EI : is = rev p ++ [Tok a; Tok b; Tok c]) by (rewrite <- (rev_involutive is), E; cbn; rewrite <- !app_assoc; reflexivity).
  subst is. apply Forall2_app_inv_r in F. destruct F as (q & q' & _ & F & ->). exists q. f_equal.
  inversion F as [|x1 ? q1 ? K1 F1]; subst. inversion F1 as [|x2 ? q2 ? K2 F2]; subst. inversion F2 as [|x3 ? q3 ? K3 F3]; subst. inversion F3; subst.
  rewrite (kind_tok _ _ K1), (kind_tok _ _ K2), (kind_tok _ _ K3). reflexivity.
Qed.
Lemma kinds_last4 ts is p t a b c : Forall2 kind ts is -> rev is = Tok c :: Tok b :: Tok a :: Tok t :: p -> exists q, ts = q ++ map TTok [t; a; b; c].
Proof.
  intros F E. assert (EI : is = rev p ++ [Tok t; Tok a; Tok b; Tok c]) by (rewrite <- (rev_involutive is), E; cbn; rewrite <- !app_assoc; reflexivity).
  subst is. apply Forall2_app_inv_r in F. destruct F as (q & q' & _ & F & ->). exists q. f_equal.
  inversion F as [|x1 ? q1 ? K1 F1]; subst. inversion F1 as [|x2 ? q2 ? K2 F2]; subst. inversion F2 as [|x3 ? q3 ? K3 F3]; subst. inversion F3 as [|x4 ? q4 ? K4 F4]; subst. inversion F4; subst.
  rewrite (kind_tok _ _ K1), (kind_tok _ _ K2), (kind_tok _ _ K3), (kind_tok _ _ K4). reflexivity.
Qed.
Lemma env_open ts is ns : transforms ts = Ok is -> (forall fuel, length is < fuel -> common fuel [] is = Ok ns) -> no_end ts -> environment below is = Ok ns.
Proof.
  intros T G NE. pose proof (transforms_kind _ _ T) as F.
  assert (H : (let! ns0 := all_common below is in Ok (ns0 ++ [])) = Ok ns) by (rewrite (all_of _ _ _ G T); cbn; rewrite app_nil_r; reflexivity).
  unfold environment. destruct (rev is) as [|[c|?|?|?|?|?|] [|[b|?|?|?|?|?|] [|[a|?|?|?|?|?|] [|[t|?|?|?|?|?|] p]]]] eqn:E; try exact H.
  destruct (kinds_last4 _ _ _ _ _ _ _ F E) as (q & EQ). destruct (matches (t_action t) ABuiltin) eqn:M; [|exact H]. apply matches_builtin in M. destruct (NE _ _ _ _ _ EQ M).
Qed.

Lemma reads_all w :
  (forall ts ns, contents w ts ns -> R_contents ts ns) /\
  (forall t n, block w t n -> R_block t n) /\
  (forall a args r, arguments w a args r -> R_arguments a args r) /\
  (forall t n, brace_block w t n -> R_brace t n) /\
  (forall a args r, lily_arguments w a args r -> R_lily a args r) /\
  (forall a args r, begins w a args r -> R_begins a args r) /\
  (forall b opts inner r, body w b opts inner r -> R_body b opts inner r) /\
  (forall o kids ns, options_after w o kids ns -> R_after o kids ns) /\
  (forall head kids ns, option_list w head kids ns -> R_list head kids ns).
Proof.
  apply grammar_mind.
  - exists []. split; [reflexivity|]. intros [|fuel] L; [inversion L|reflexivity].
  - intros us r ns W _ (is & T & G). exists (IUnknown :: is). split; [apply transforms_cons; [reflexivity|exact T]|]. intros [|fuel] L; [inversion L|]. cbn [Latex_Model.common]. apply G. cbn in L. lia.
  - intros t ts us r ns TO TT TE _ (is & T & G). destruct (text_reads _ _ _ TO) as (ti & TI & GT).
    exists (Tok t :: ti ++ is). split; [apply transforms_cons; [reflexivity|apply transforms_app; assumption]|]. intros [|fuel] L; [inversion L|]. rewrite (text_action _ TT). cbn in L. rewrite app_length in L.
    destruct (GT ([] ++ [t]) is fuel) as (f & LF & E); [lia|]. rewrite E. cbn [app]. rewrite (text_flush _ _ _ _ _ TE T), (G f LF). reflexivity.
  - intros t n r ns _ (b & TB) _ (is & T & G). exists (INode b n :: is). split; [apply transforms_cons; assumption|]. intros [|fuel] L; [inversion L|]. cbn [Latex_Model.common]. rewrite G by (cbn in L; lia). reflexivity.
  - intros t a args r ns A _ RA _ (is & T & G). destruct (RA _ T) as (ai & TA & C). exists (Tok t :: ai ++ is). split; [apply transforms_cons; [reflexivity|apply transforms_app; assumption]|].
    intros [|fuel] L; [inversion L|]. cbn [Latex_Model.common]. rewrite A, C. cbn [bindr]. rewrite G by (cbn in L; rewrite app_length in L; lia). reflexivity.
  - intros t a args r ns A RD _ RA _ (is & T & G). destruct (RA _ T) as (ai & TA & C). exists (Tok t :: ai ++ is). split; [apply transforms_cons; [reflexivity|apply transforms_app; assumption]|].
    intros [|fuel] L; [inversion L|]. cbn [Latex_Model.common]. rewrite A, (proj2 (is_text_spec _ _) RD), C. cbn [bindr]. rewrite G by (cbn in L; rewrite app_length in L; lia). reflexivity.
  - intros t a args b opts inner r ns A NR _ RBg _ RB _ (is & T & G). destruct (RB _ T) as (bi & TB & C). destruct (RBg _ (transforms_app _ _ _ _ TB T)) as (ai & TA & D).
    exists (Tok t :: ai ++ bi ++ is). split; [apply transforms_cons; [reflexivity|apply transforms_app; [assumption|apply transforms_app; assumption]]|].
    intros [|fuel] L; [inversion L|]. cbn [Latex_Model.common]. rewrite A, (is_text_no _ _ NR). unfold read_environment. rewrite D. cbn [bindr]. rewrite C. cbn [bindr]. rewrite G by (cbn in L; rewrite !app_length in L; lia). reflexivity.
  - intros o kids ns c _ (is & T & G) R. exists true. rewrite transform_cx, (transforms_cons (TTok o) _ (Tok o) _ eq_refl (transforms_app _ [TTok c] _ _ T eq_refl)). cbn [bindr method]. unfold brace.
    change (Tok o :: is ++ [Tok c]) with ((Tok o :: is) ++ [Tok c]). rewrite (pop_close "}" (Tok o :: is) c R). cbn [skipn app]. rewrite (all_of _ _ _ G T). reflexivity.
  - intros o kids ns _ (is & T & G) R. exists true. assert (TO := transforms_cons (TTok o) _ (Tok o) _ eq_refl T). rewrite transform_cx, TO. cbn [bindr method]. unfold brace.
    rewrite (pop_open _ _ _ (transforms_kind _ _ TO) R). cbn [skipn]. rewrite (all_of _ _ _ G T). reflexivity.
  - intros k s e o kids ns c M RO _ (is & T & G) R. exists false. rewrite transform_cx, (transforms_cons (TTok o) _ (Tok o) _ eq_refl (transforms_app _ [TTok c] _ _ T eq_refl)). cbn [bindr method]. unfold math.
    assert (E : math_class o = Some (k, e)). { unfold math_class, is_text. unfold reads in RO. rewrite RO. cbn in M. destruct M as [M|[M|[M|[M|[]]]]]; injection M as <- <- <-; reflexivity. }
    rewrite E, (pop_close e is c R), (all_of _ _ _ G T). reflexivity.
  - intros k s e o kids ns M RO _ (is & T & G) R. exists false. rewrite transform_cx, (transforms_cons (TTok o) _ (Tok o) _ eq_refl T). cbn [bindr method]. unfold math.
    assert (E : math_class o = Some (k, e)). { unfold math_class, is_text. unfold reads in RO. rewrite RO. cbn in M. destruct M as [M|[M|[M|[M|[]]]]]; injection M as <- <- <-; reflexivity. }
    rewrite E, (pop_open _ _ _ (transforms_kind _ _ T) R), (all_of _ _ _ G T). reflexivity.
  - intros ts. exists false. rewrite transform_cx, transforms_tokens. cbn [bindr method]. rewrite tokens_map. reflexivity.
  - (* arguments *)
    intros r NO NB ri T. exists []. split; [reflexivity|]. intros t. cbn [app]. pose proof (transforms_kind _ _ T) as F. unfold command.
    assert (H : match ri with INode true n :: r => Ok (N KCommand [t] ([] ++ [n]) [], r) | _ => Ok (N KCommand [t] [] [], ri) end = Ok (N KCommand [t] [] [], ri)).
    { destruct F as [|x i r ri K F]; [reflexivity|]. destruct i as [?|[] ?|?|?|?|?|]; try reflexivity. destruct (kind_brace _ _ K) as (k & ->). destruct (NB k r eq_refl). }
    destruct ri as [|[b|?|?|?|?|?|] [|[?|?|o h|?|?|?|] ri]]; try exact H. exfalso. inversion F as [|x i r' ri' K F']; subst. inversion F' as [|x' i' r'' ri'' K' F'']; subst. destruct (kind_option _ _ _ K') as (k & ->). rewrite (kind_tok _ _ K) in NO. eapply NO. reflexivity.
  - intros b n r _ TB ri T. exists [INode true n]. split; [apply (transforms_cons b [] _ _ TB eq_refl)|]. intros t. reflexivity.
  - intros o kids ns r A _ (is & os & TK & OM & GO & _) NB ri T. exists [Tok o; IOption os []]. split.
    { apply transforms_cons; [reflexivity|]. apply transforms_cons; [|reflexivity]. rewrite transform_cx, TK. cbn [bindr method]. rewrite OM. reflexivity. }
    intros t. unfold command. cbn [app]. rewrite A, matches_refl, GO. cbn [bindr]. pose proof (transforms_kind _ _ T) as F. destruct F as [|x i r ri K F]; [reflexivity|]. destruct i as [?|[] ?|?|?|?|?|]; try reflexivity. destruct (kind_brace _ _ K) as (k & ->). destruct (NB k r eq_refl).
  - intros o kids ns b n r A _ (is & os & TK & OM & GO & _) _ TB ri T. exists [Tok o; IOption os []; INode true n]. split.
    { apply transforms_cons; [reflexivity|]. apply transforms_cons; [|apply (transforms_cons b [] _ _ TB eq_refl)]. rewrite transform_cx, TK. cbn [bindr method]. rewrite OM. reflexivity. }
    intros t. unfold command. cbn [app]. rewrite A, matches_refl, GO. reflexivity.
  - intros kids n _ (b & TB). pose proof (transform_kind _ _ TB) as (n' & E). injection E as -> ->. exact TB.
  - (* lilypond *)
    intros r NO NL ri T. exists []. split; [reflexivity|]. intros t. cbn [app]. pose proof (transforms_kind _ _ T) as F. unfold lilypond_command.
    destruct ri as [|[b|?|?|?|?|?|] [|[?|?|o h|?|?|o m tl|] ri]]; try reflexivity; exfalso; inversion F as [|x i r' ri' K F']; subst; inversion F' as [|x' i' r'' ri'' K' F'']; subst; rewrite (kind_tok _ _ K) in *.
    + destruct (kind_option _ _ _ K') as (k & ->). eapply NO. reflexivity.
    + destruct (kind_lily _ _ _ _ K') as (k & ->). eapply NL. reflexivity.
  - intros b music tl r B ri T. exists [Tok b; ILily [] music tl]. split; [reflexivity|]. intros t. cbn [app lilypond_command]. rewrite B, matches_refl. reflexivity.
  - intros o kids ns r A _ (is & os & TK & OM & GO & _) NL ri T. exists [Tok o; IOption os []]. split.
    { apply transforms_cons; [reflexivity|]. apply transforms_cons; [|reflexivity]. rewrite transform_cx, TK. cbn [bindr method]. rewrite OM. reflexivity. }
    intros t. cbn [app lilypond_command]. rewrite A, matches_refl, GO. cbn [bindr]. pose proof (transforms_kind _ _ T) as F. destruct F as [|x i r ri K F]; [reflexivity|]. destruct i as [?|[] ?|?|?|?|?|]; try reflexivity. destruct (kind_lily _ _ _ _ K) as (k & ->). edestruct NL. reflexivity.
  - intros o kids ns b music tl r A _ (is & os & TK & OM & GO & GB) B ri T. exists [Tok o; IOption os [b]; ILily [] music tl]. split.
    { apply transforms_cons; [reflexivity|]. apply transforms_cons; [|reflexivity]. rewrite transform_cx, (transforms_app _ [TTok b] _ _ TK eq_refl). cbn [bindr method]. rewrite (GB _ B). reflexivity. }
    intros t. cbn [app lilypond_command]. rewrite A, matches_refl, GO. reflexivity.
  - (* begin *)
    intros r (NN & NO) ri T. exists []. split; [reflexivity|]. cbn [app]. pose proof (transforms_kind _ _ T) as F. apply begin_other.
    + intros a b c r' ->. inversion F as [|x1 ? q1 ? K1 F1]; subst. inversion F1 as [|x2 ? q2 ? K2 F2]; subst. inversion F2 as [|x3 ? q3 ? K3 F3]; subst. rewrite (kind_tok _ _ K1), (kind_tok _ _ K2), (kind_tok _ _ K3) in NN. eapply NN. reflexivity.
    + intros a o n r' ->. inversion F as [|x1 ? q1 ? K1 F1]; subst. inversion F1 as [|x2 ? q2 ? K2 F2]; subst. destruct (kind_env_option _ _ _ K2) as (k & ->). rewrite (kind_tok _ _ K1) in NO. eapply NO. reflexivity.
  - intros a b c r NM ri T. exists (map Tok [a; b; c]). split; [apply transforms_tokens|]. cbn [map app environment_begin]. rewrite (names_match _ _ _ NM). reflexivity.
  - intros o kids ns r A _ (is & os & TK & OM & GO & _) NN ri T. exists [Tok o; IEnvOption os None]. split.
    { apply transforms_cons; [reflexivity|]. apply transforms_cons; [|reflexivity]. rewrite transform_cx, TK. cbn [bindr method]. unfold environment_option. pose proof (transforms_kind _ _ TK) as F.
      assert (H : (let! x := (let! x := option_method below is in Ok (fst x, @None node)) in Ok (IEnvOption (fst x) (snd x))) = Ok (IEnvOption os None)) by (rewrite OM; reflexivity).
      destruct (rev is) as [|[c|?|?|?|?|?|] [|[b|?|?|?|?|?|] [|[a|?|?|?|?|?|] p]]] eqn:E; try exact H.
      destruct (kinds_last3 _ _ _ _ _ _ F E) as (q & EQ). destruct (matches (t_action b) ATag) eqn:M; [apply matches_tag in M; destruct (NN _ _ _ _ EQ M)|]. rewrite andb_false_r. exact H. }
    cbn [app environment_begin]. rewrite A, matches_refl, GO. cbn. rewrite app_nil_r. reflexivity.
  - intros o kids ns a b c r A _ (is & os & TK & OM & GO & _) NM ri T. exists [Tok o; IEnvOption os (Some (name_of a b c))]. split.
    { apply transforms_cons; [reflexivity|]. apply transforms_cons; [|reflexivity]. rewrite transform_cx, (transforms_app _ _ _ _ TK (transforms_tokens [a; b; c])). cbn [bindr method]. unfold environment_option. rewrite rev_app_distr. cbn [map rev app].
      rewrite (names_match _ _ _ NM), rev_involutive, OM. reflexivity. }
    cbn [app environment_begin]. rewrite A, matches_refl, GO. reflexivity.
  - (* body *)
    intros r TE ri T. exists []. split; [reflexivity|]. intros t args. cbn [app]. rewrite app_nil_r. pose proof (transforms_kind _ _ T) as F. destruct F as [|x i r ri K F]; [reflexivity|]. destruct x; cbn in TE; try contradiction. cbn in K. subst i. reflexivity.
  - intros l kids e ns n r L _ (is & TK & G) EN NE ri T. exists [IEnvironment (ns ++ n)]. split.
    + apply transforms_cons; [|reflexivity]. rewrite transform_cx. destruct EN as [(-> & ->)|(t & a & b & c & B & _ & NM & -> & ->)].
      * rewrite !app_nil_r, TK. cbn [bindr]. destruct L as [-> | ->]; cbn [method]; rewrite (env_open _ _ _ TK G (NE eq_refl)); reflexivity.
      * rewrite (transforms_app _ _ _ _ TK (transforms_tokens [t; a; b; c])). cbn [bindr]. destruct L as [-> | ->]; cbn [method]; rewrite (env_end _ _ _ _ _ _ _ TK G B NM); reflexivity.
    + intros t args. cbn. rewrite app_nil_r. reflexivity.
  - intros music tl r _ ri T. exists [ILily [] music tl]. split; [reflexivity|]. intros t args. reflexivity.
  - intros o kids ns music tl r _ A R _ (is & TK & G) NB ri T. exists [ILily (map Whole ns) music tl]. split.
    + apply transforms_cons; [|reflexivity]. rewrite transform_lily. cbn [Latex_Model.transforms]. rewrite transform_cx, (transforms_cons (TTok o) _ (Tok o) _ eq_refl TK). cbn [bindr method].
      destruct (G (S (length is)) ltac:(lia)) as (G1 & _). rewrite (method_bracket _ _ _ _ A R TK NB (G1 ltac:(discriminate))). reflexivity.
    + intros t args. cbn [app environment_body]. rewrite elements_whole. reflexivity.
  - intros us r W ri T. exists [IUnknown]. split; [reflexivity|]. intros t args. cbn. rewrite app_nil_r. reflexivity.
  - intros t n r W _ (b & TB) ri T. exists [INode b n]. split; [apply (transforms_cons t [] _ _ TB eq_refl)|]. intros x args. cbn. rewrite app_nil_r. reflexivity.
  - (* options *)
    intros o kids ns _ (is & TK & G) C NO NB. destruct (G (S (length is)) ltac:(lia)) as (_ & G2). destruct (G2 C) as (inner & tl & rest & -> & O).
    destruct (method_open _ _ _ TK NO NB O) as (M1 & M2). exists is, (Part inner tl :: map Whole rest). split; [exact TK|]. split; [exact M1|]. split; [|exact M2]. cbn [get_options]. rewrite elements_whole. reflexivity.
  - intros o kids ns W _ (is & TK & G) WO NO NB. assert (O : options below (S (length is)) [] is = Ok [Whole (N KOption [] ns [])]).
    { cbn [options]. rewrite (index_none _ _ _ (transforms_kind _ _ TK) WO), (all_of _ _ _ G TK). reflexivity. }
    destruct (method_open _ _ _ TK NO NB O) as (M1 & M2). eexists. eexists. split; [exact TK|]. split; [exact M1|]. split; [reflexivity|exact M2].
  - intros head kids ns _ (is & TK & G) WO. exists is. split; [exact TK|]. intros [|fuel] L; [inversion L|]. split.
    + intros _. cbn [options]. rewrite (index_none _ _ _ (transforms_kind _ _ TK) WO), (all_of _ _ _ G TK). reflexivity.
    + intros (c & IN & R). destruct (WO _ IN R).
  - intros head kids ns c x _ (is & TK & G) WO R WX _. exists (is ++ Tok c :: map Tok x). split; [apply transforms_app; [exact TK|]; apply transforms_cons; [reflexivity|apply transforms_tokens]|].
    assert (IX : index "[" (map Tok x) = None) by (eapply index_none; [apply transforms_kind, transforms_tokens|exact WX]).
    intros [|fuel] L; [inversion L|]. split.
    + intros H. cbn [options]. rewrite (index_some _ _ _ _ _ (transforms_kind _ _ TK) WO R), (all_of _ _ _ G TK). cbn [bindr]. rewrite IX. destruct head; [contradiction|reflexivity].
    + intros _. exists ns, [c], []. split; [reflexivity|]. cbn [options]. rewrite (index_some _ _ _ _ _ (transforms_kind _ _ TK) WO R), (all_of _ _ _ G TK). cbn [bindr]. rewrite IX. reflexivity.
  - intros head kids ns c x o r ms _ (is & TK & G) WO R WX _ RO _ (ri & TR & GR). exists (is ++ Tok c :: map Tok x ++ Tok o :: ri).
    split; [apply transforms_app; [exact TK|]; apply transforms_cons; [reflexivity|]; apply transforms_app; [apply transforms_tokens|]; apply transforms_cons; [reflexivity|exact TR]|].
    assert (IX : index "[" (map Tok x ++ Tok o :: ri) = Some (map Tok x, o, ri)) by (eapply index_some; [apply transforms_kind, transforms_tokens|exact WX|exact RO]).
    intros [|fuel] L; [inversion L|]. destruct (GR fuel) as (G1 & _); [rewrite app_length in L; cbn in L; rewrite app_length in L; cbn in L; lia|]. specialize (G1 ltac:(discriminate)). split.
    + intros H. cbn [options]. rewrite (index_some _ _ _ _ _ (transforms_kind _ _ TK) WO R), (all_of _ _ _ G TK). cbn [bindr]. rewrite IX, G1. destruct head; [contradiction|reflexivity].
    + intros _. exists ns, [c], ms. split; [reflexivity|]. cbn [options]. rewrite (index_some _ _ _ _ _ (transforms_kind _ _ TK) WO R), (all_of _ _ _ G TK). cbn [bindr]. rewrite IX, G1. reflexivity.
Qed.
(** What the contents of a document mean is what is read. *)
Theorem C100_reads : forall w ts ns, contents w ts ns -> root below ts = Ok (N KDocument [] ns []).
Proof. intros w ts ns C. destruct (reads_all w) as (H & _). destruct (H _ _ C) as (is & T & G). unfold root. rewrite T. cbn [bindr]. rewrite (all_of _ _ _ G T). reflexivity. Qed.
Lemma common_begin t r fuel n r' : t_action t = ABuiltin -> reads t "\begin" -> read_environment below t r = Ok (n, r') -> common (S fuel) [] (Tok t :: r) = let! ns := common fuel [] r' in Ok (n :: ns).
Proof. intros A RB E. cbn [Latex_Model.common]. rewrite A, is_text_no by (unfold reads in *; rewrite RB; discriminate). rewrite E. reflexivity. Qed.
(** Finding: the bracket of an option at the end of the text that is not closed is in no element. *)
Theorem C100_bracket_finding : forall w t o kids ns, contents w kids ns -> t_action t = ACommand -> t_action o = ABracket -> without "]" kids -> ~ opens kids -> ~ last_brace kids ->
  root below [TTok t; TTok o; TCx LOption kids] = Ok (N KDocument [] [N KCommand [t] [N KOption [] ns []] []] []).
Proof.
  intros w t o kids ns C A B W NO NB. destruct (reads_all w) as (H & _). destruct (H _ _ C) as (is & T & G).
  assert (O : options below (S (length is)) [] is = Ok [Whole (N KOption [] ns [])]) by (cbn [options]; rewrite (index_none _ _ _ (transforms_kind _ _ T) W), (all_of _ _ _ G T); reflexivity).
  destruct (method_open _ _ _ T NO NB O) as (M1 & _). unfold root. cbn [Latex_Model.transforms Latex_Model.transform bindr]. rewrite all_eq, T. cbn [bindr method]. rewrite M1. cbn [bindr fst snd]. unfold all_common. cbn [Latex_Model.common length]. rewrite A. unfold command. rewrite B, matches_refl. reflexivity.
Qed.
(** Finding: when the contents of an environment end with the beginning of another one (and the text ends there), that is read as the end of the environment. *)
Theorem C100_end_finding : forall w t a b c kids ns t' a' b' c', contents w kids ns -> t_action t = ABuiltin -> reads t "\begin" -> names a b c -> t_action t' = ABuiltin -> reads t' "\begin" -> names a' b' c' ->
  root below (map TTok [t; a; b; c] ++ [TCx LEnvironment (kids ++ map TTok [t'; a'; b'; c'])]) =
    Ok (N KDocument [] [N KEnvironment [] (N KCommand [t] [name_of a b c] [] :: ns ++ [N KCommand [t'] [name_of a' b' c'] []]) []] []).
Proof.
  intros w t a b c kids ns t' a' b' c' C A RB NM A' RB' NM'. destruct (reads_all w) as (H & _). destruct (H _ _ C) as (is & T & G).
  assert (E := env_end _ _ _ _ _ _ _ T G A' NM'). assert (TE := transforms_app _ _ _ _ T (transforms_tokens [t'; a'; b'; c'])).
  unfold root. cbn [map app Latex_Model.transforms Latex_Model.transform bindr]. rewrite all_eq. cbn [map] in TE. rewrite TE. cbn [bindr method map]. cbn [map] in E. rewrite E. cbn [bindr]. unfold all_common.
  erewrite common_begin; [|exact A|exact RB|unfold read_environment; cbn [environment_begin]; rewrite (names_match _ _ _ NM); reflexivity]. reflexivity.
Qed.
(** Finding: when there is no context of an environment after the name of it, the next context is left out. *)
Theorem C100_dropped_finding : forall w t a b c x n, block w x n -> t_action t = ABuiltin -> reads t "\begin" -> names a b c ->
  root below (map TTok [t; a; b; c] ++ [x]) = Ok (N KDocument [] [N KEnvironment [] [N KCommand [t] [name_of a b c] []] []] []).
Proof.
  intros w t a b c x n B A RB NM. destruct (reads_all w) as (_ & H & _). destruct (H _ _ B) as (br & T).
  unfold root. cbn [map app Latex_Model.transforms Latex_Model.transform bindr]. fold (transform x). rewrite T. cbn [bindr]. unfold all_common.
  erewrite common_begin; [|exact A|exact RB|unfold read_environment; cbn [environment_begin]; rewrite (names_match _ _ _ NM); reflexivity]. reflexivity.
Qed.
End C100.

(** ** The tokens *)
Section Tokens.
Definition rel {A} (w : bool) (a b : list A) : Prop := (w = true -> a = b) /\ sublist a b.
Lemma sub_refl {A} (a : list A) : sublist a a.
Proof. induction a; constructor; assumption. Qed.
Lemma sub_app {A} (a b c d : list A) : sublist a b -> sublist c d -> sublist (a ++ c) (b ++ d).
Proof. intros H K. induction H; cbn; [exact K| |]; constructor; assumption. Qed.
Lemma sub_nothing {A} (a : list A) : sublist [] a.
Proof. induction a; constructor; assumption. Qed.
Lemma sub_left {A} (a b c : list A) : sublist a b -> sublist a (b ++ c).
Proof. intros H. rewrite <- (app_nil_r a). apply sub_app; [exact H|apply sub_nothing]. Qed.
Lemma sub_right {A} (a b c : list A) : sublist a c -> sublist a (b ++ c).
Proof. intros H. apply (sub_app [] b a c); [apply sub_nothing|exact H]. Qed.
Lemma sub_trans {A} (a b c : list A) : sublist a b -> sublist b c -> sublist a c.
Proof. intros H K. revert a H. induction K as [|x b c K IH|x b c K IH]; intros a H; [exact H| |apply sub_skip, IH, H]. inversion H; subst; constructor; apply IH; assumption. Qed.
Lemma rel_refl {A} w (a : list A) : rel w a a.
Proof. split; [reflexivity|apply sub_refl]. Qed.
Lemma rel_app {A} w (a b c d : list A) : rel w a b -> rel w c d -> rel w (a ++ c) (b ++ d).
Proof. intros [E S] [F T]. split; [intros W; rewrite (E W), (F W); reflexivity|apply sub_app; assumption]. Qed.
Lemma rel_cons {A} w (x : A) (a b : list A) : rel w a b -> rel w (x :: a) (x :: b).
Proof. apply (rel_app w [x] [x]), rel_refl. Qed.
Lemma rel_skip {A} w (x a b : list A) : (w = true -> x = []) -> rel w a b -> rel w a (x ++ b).
Proof. intros X H. apply (rel_app w [] x); [|exact H]. split; [intros W; rewrite X; auto|apply sub_nothing]. Qed.
Lemma flat_tokens ts : flat_map tree_tokens (map TTok ts) = ts.
Proof. induction ts as [|t ts IH]; [reflexivity|]. cbn. f_equal. exact IH. Qed.
Notation nt := (flat_map node_tokens).
Notation tt := (flat_map tree_tokens).
Variable w : bool.
Lemma text_tokens ts us : text_of w ts us -> rel w us (tt ts).
Proof. induction 1 as [|t r ts T H IH|us r ts W H IH]; [apply rel_refl|apply rel_cons; exact IH|]. cbn [flat_map tree_tokens]. apply rel_skip; [congruence|exact IH]. Qed.
Lemma tokens_all :
  (forall ts ns, contents w ts ns -> rel w (nt ns) (tt ts)) /\
  (forall t n, block w t n -> rel w (node_tokens n) (tree_tokens t)) /\
  (forall a args r, arguments w a args r -> rel w (nt args) (tt a)) /\
  (forall t n, brace_block w t n -> rel w (node_tokens n) (tree_tokens t)) /\
  (forall a args r, lily_arguments w a args r -> rel w (nt args) (tt a)) /\
  (forall a args r, begins w a args r -> rel w (nt args) (tt a)) /\
  (forall b opts inner r, body w b opts inner r -> rel w (nt opts ++ nt inner) (tt b)) /\
  (forall o kids ns, options_after w o kids ns -> rel w (nt ns) (o :: tt kids)) /\
  (forall head kids ns, option_list w head kids ns -> rel w (nt ns) (head ++ tt kids)).
Proof.
  apply grammar_mind; intros; cbn [flat_map node_tokens tree_tokens app map]; rewrite ?flat_map_app, ?app_nil_r; cbn [flat_map node_tokens tree_tokens app map]; rewrite ?flat_map_app, ?app_nil_r, ?flat_tokens; cbn [flat_map node_tokens tree_tokens app map]; rewrite ?app_nil_r; try apply rel_refl; try assumption.
  - apply rel_skip; [congruence|assumption].
  - apply rel_cons. apply rel_app; [apply text_tokens; assumption|assumption].
  - apply rel_app; assumption.
  - apply rel_cons, rel_app; assumption.
  - apply rel_cons, rel_app; assumption.
  - apply rel_cons. rewrite <- !app_assoc. apply rel_app; [assumption|]. rewrite app_assoc. apply rel_app; assumption.
  - apply rel_cons, rel_app; [assumption|apply rel_refl].
  - apply rel_cons; assumption.
  - apply rel_cons, rel_app; [assumption|apply rel_refl].
  - apply rel_cons; assumption.
  - apply (rel_app w _ (o :: tt kids)); assumption.
  - rewrite <- app_assoc. apply (rel_app w _ (o :: tt kids)); [assumption|apply rel_refl].
  - apply (rel_app w _ (o :: tt kids)); [assumption|apply rel_refl].
  - apply rel_app; [assumption|]. match goal with H : ends _ _ |- _ => destruct H as [(-> & ->)|(t & a & b & c & B & _ & NM & -> & ->)]; apply rel_refl end.
  - destruct w eqn:W; [rewrite H, app_nil_r by reflexivity; apply rel_refl|]. split; [discriminate|apply sub_left, sub_refl].
  - apply (rel_app w _ (o :: tt kids)); [assumption|]. destruct w eqn:W; [rewrite H, app_nil_r by reflexivity; apply rel_refl|]. split; [discriminate|apply sub_left, sub_refl].
  - split; [congruence|apply sub_nothing].
  - split; [congruence|apply sub_nothing].
  - split; [congruence|]. apply sub_skip. apply H1.
  - apply rel_app; [apply rel_refl|assumption].
  - rewrite <- ?app_assoc. apply rel_app; [apply rel_refl|]. apply rel_app; [assumption|]. destruct w eqn:W; [rewrite H4 by reflexivity; apply rel_refl|]. split; [discriminate|apply (sub_left [c] [c]), sub_refl].
  - rewrite <- ?app_assoc. apply rel_app; [apply rel_refl|]. apply rel_app; [assumption|]. cbn [app]. apply rel_cons. rewrite ?flat_map_app, ?flat_tokens. apply rel_skip; [assumption|]. cbn. assumption.
Qed.
End Tokens.
(** No token is duplicated or moved; and none is lost if nothing has to be left out. *)
Theorem C100_tokens : forall w ts ns, contents w ts ns -> sublist (flat_map node_tokens ns) (flat_map tree_tokens ts).
Proof. intros w ts ns C. apply (tokens_all w). exact C. Qed.
(** Missing for the full claim: the tokens that are left out (the findings). *)
Theorem C100_complete_partial : forall ts ns, contents true ts ns -> flat_map node_tokens ns = flat_map tree_tokens ts.
Proof. intros ts ns C. apply (tokens_all true); [exact C|reflexivity]. Qed.

(** ** Reading always succeeds *)
Section Total.
Variable below : bool.
Notation nt := (flat_map node_tokens).
Definition opt_tokens (o : opt) : list token := match o with Part ns tl => nt ns ++ tl | Whole n => node_tokens n end.
Notation ot := (flat_map opt_tokens).
Definition item_tokens (i : item) : list token :=
  match i with
  | Tok t => [t]
  | INode _ n => node_tokens n
  | IOption o h => ot o ++ h
  | IEnvOption o n => ot o ++ nt (name_node n)
  | IEnvironment ns => nt ns
  | ILily o m tl => ot o ++ nt m ++ tl
  | IUnknown => []
  end.
Notation it := (flat_map item_tokens).
Definition is_whole (o : opt) : Prop := match o with Whole _ => True | Part _ _ => False end.
Definition good_options (o : list opt) : Prop := match o with [] => False | _ :: r => Forall is_whole r end.
Definition good (i : item) : Prop :=
  match i with IOption o _ => good_options o | IEnvOption o _ => good_options o | ILily o _ _ => Forall is_whole o | _ => True end.
Lemma elements_ok o : Forall is_whole o -> exists ns, elements o = Ok ns /\ nt ns = ot o.
Proof.
  induction 1 as [|[c tl|n] o W F (ns & E & T)]; [exists []; split; reflexivity|contradiction|]. exists (n :: ns). cbn. rewrite E, T. split; reflexivity.
Qed.
Lemma get_ok h o : good_options o -> exists ns, get_options h o = Ok ns /\ sublist (nt ns) (h :: ot o).
Proof.
  destruct o as [|[c tl|n] o]; cbn [good_options]; [contradiction| |]; intros F; destruct (elements_ok _ F) as (ns & E & T); cbn [get_options elements]; rewrite E; cbn [bindr]; eexists; (split; [reflexivity|]).
  - cbn. rewrite T. cbn. rewrite <- app_assoc. apply sub_refl.
  - cbn. rewrite T. apply sub_skip, sub_refl.
Qed.
Lemma it_flat o : flat_map item_tokens o = it o.
Proof. reflexivity. Qed.
(** what is read and the rest, from these items *)
Definition step (t : token) (items : list item) (x : res (node * list item)) : Prop :=
  exists n r, x = Ok (n, r) /\ (exists a, items = a ++ r) /\ sublist (node_tokens n ++ it r) (t :: it items).
Lemma good_rest (a r : list item) : Forall good (a ++ r) -> Forall good r.
Proof. rewrite Forall_app. tauto. Qed.
Lemma command_ok t items : Forall good items -> step t items (command below t items).
Proof.
  intros G. unfold command.
  assert (H : exists args r, (match items with Tok b :: IOption o _ :: r => if matches below (t_action b) ABracket then let! ns := get_options b o in Ok (ns, r) else Ok ([], items) | _ => Ok ([], items) end) = Ok (args, r)
    /\ (exists a, items = a ++ r) /\ sublist (nt args ++ it r) (it items)).
  { assert (D : exists args r, Ok ([], items) = Ok (args, r) /\ (exists a, items = a ++ r) /\ sublist (nt args ++ it r) (it items)) by (exists [], items; split; [reflexivity|split; [exists []; reflexivity|apply sub_refl]]).
    destruct items as [|[b|?|?|?|?|?|] [|[?|?|o h|?|?|?|] r]]; try exact D. destruct (matches below (t_action b) ABracket); [|exact D].
    inversion G as [|? ? _ G']; subst. inversion G' as [|? ? G1 _]; subst. destruct (get_ok b o G1) as (ns & E & T). rewrite E. exists ns, r. split; [reflexivity|]. split; [exists [Tok b; IOption o h]; reflexivity|].
    cbn. rewrite <- app_assoc. apply (sub_app _ (b :: ot o)); [exact T|apply sub_right, sub_refl]. }
  destruct H as (args & r & E & (a & A) & T). rewrite E. cbn [bindr].
  assert (D : step t items (Ok (N KCommand [t] args [], r))). { exists (N KCommand [t] args []), r. split; [reflexivity|]. split; [exists a; exact A|]. cbn. rewrite app_nil_r. apply sub_keep. exact T. }
  destruct r as [|[?|[] n|?|?|?|?|] r]; try exact D. exists (N KCommand [t] (args ++ [n]) []), r. split; [reflexivity|]. split; [exists (a ++ [INode true n]); rewrite <- app_assoc; exact A|].
  cbn. rewrite flat_map_app. cbn. rewrite !app_nil_r, <- app_assoc. apply sub_keep. exact T.
Qed.
Lemma lilypond_ok t items : Forall good items -> step t items (lilypond_command below t items).
Proof.
  intros G. assert (D : step t items (Ok (N KCommand [t] [] [], items))). { exists (N KCommand [t] [] []), items. split; [reflexivity|]. split; [exists []; reflexivity|]. apply sub_refl. }
  destruct items as [|[b|?|?|?|?|?|] [|[?|?|o h|?|?|o m tl|] r]]; try exact D; cbn [lilypond_command].
  - destruct (matches below (t_action b) ADelimiter); [|exact D]. inversion G as [|? ? _ G']; subst. inversion G' as [|? ? G1 _]; subst. destruct (get_ok b o G1) as (ns & E & T). rewrite E. cbn [bindr].
    assert (D' : step t (Tok b :: IOption o h :: r) (Ok (N KCommand [t] ns [], r))).
    { exists (N KCommand [t] ns []), r. split; [reflexivity|]. split; [exists [Tok b; IOption o h]; reflexivity|]. cbn. rewrite app_nil_r, <- app_assoc. apply sub_keep. apply (sub_app _ (b :: ot o)); [exact T|apply sub_right, sub_refl]. }
    destruct r as [|[?|?|?|?|?|o' m tl|] r]; try exact D'. eexists. eexists. split; [reflexivity|]. split; [exists [Tok b; IOption o h; ILily o' m tl]; reflexivity|]. cbn. rewrite flat_map_app. cbn. rewrite !app_nil_r, <- !app_assoc. apply sub_keep.
    apply (sub_app _ (b :: ot o)); [exact T|]. apply sub_app; [apply sub_refl|]. apply sub_right, sub_refl.
  - destruct (matches below (t_action b) ABrace); [|exact D]. eexists. eexists. split; [reflexivity|]. split; [exists [Tok b; ILily o m tl]; reflexivity|]. cbn. rewrite !app_nil_r, <- !app_assoc. apply sub_keep, sub_keep. apply sub_right, sub_refl.
Qed.
Lemma environment_ok t items : Forall good items -> step t items (read_environment below t items).
Proof.
  intros G. unfold read_environment.
  assert (H : exists args r, environment_begin below items = Ok (args, r) /\ (exists a, items = a ++ r) /\ sublist (nt args ++ it r) (it items)).
  { assert (D : exists args r, Ok ([], items) = Ok (args, r) /\ (exists a, items = a ++ r) /\ sublist (nt args ++ it r) (it items)) by (exists [], items; split; [reflexivity|split; [exists []; reflexivity|apply sub_refl]]).
    unfold environment_begin. destruct items as [|[a|?|?|?|?|?|] [|[b|?|?|o n|?|?|] r]]; try exact D.
    - destruct r as [|[c|?|?|?|?|?|] r]; try exact D. destruct (_ && _); [|exact D]. eexists. eexists. split; [reflexivity|]. split; [exists [Tok a; Tok b; Tok c]; reflexivity|]. apply sub_refl.
    - assert (H : exists args r', (if matches below (t_action a) ABracket then let! ns := get_options a o in Ok (ns ++ name_node n, r) else Ok ([], Tok a :: IEnvOption o n :: r)) = Ok (args, r') /\ (exists x, Tok a :: IEnvOption o n :: r = x ++ r') /\ sublist (nt args ++ it r') (it (Tok a :: IEnvOption o n :: r))); [|destruct r; exact H].
      destruct (matches below (t_action a) ABracket); [|exact D]. inversion G as [|? ? _ G']; subst. inversion G' as [|? ? G1 _]; subst. destruct (get_ok a o G1) as (ns & E & T). rewrite E. cbn [bindr]. eexists. eexists. split; [reflexivity|]. split; [exists [Tok a; IEnvOption o n]; reflexivity|].
      cbn. rewrite flat_map_app, <- !app_assoc. apply (sub_app _ (a :: ot o)); [exact T|apply sub_refl]. }
  destruct H as (args & r & E & (a & A) & T). rewrite E. cbn [bindr].
  assert (GR : Forall good r) by (apply (good_rest a); rewrite <- A; exact G).
  assert (D : step t items (Ok (N KEnvironment [] [N KCommand [t] args []] [], r))). { eexists. eexists. split; [reflexivity|]. split; [exists a; exact A|]. cbn. rewrite !app_nil_r. apply sub_keep. exact T. }
  assert (D' : forall i r', r = i :: r' -> step t items (Ok (N KEnvironment [] [N KCommand [t] args []] [], r'))).
  { intros i r' ->. eexists. eexists. split; [reflexivity|]. split; [exists (a ++ [i]); rewrite <- app_assoc; exact A|]. cbn. rewrite !app_nil_r. apply sub_keep. eapply sub_trans; [|exact T]. apply sub_app; [apply sub_refl|]. cbn. apply sub_right, sub_refl. }
  destruct r as [|[?|?|?|?|ns|o m tl|] r]; cbn [environment_body]; try exact D; try (eapply D'; reflexivity).
  - eexists. eexists. split; [reflexivity|]. split; [exists (a ++ [IEnvironment ns]); rewrite <- app_assoc; exact A|]. cbn. rewrite !app_nil_r, <- app_assoc. apply sub_keep. exact T.
  - inversion GR as [|? ? G1 _]; subst. destruct (elements_ok _ G1) as (ns & EN & TN). rewrite EN. cbn [bindr]. eexists. eexists. split; [reflexivity|]. split; [exists (a ++ [ILily o m tl]); rewrite <- app_assoc; reflexivity|].
    cbn. rewrite !app_nil_r, flat_map_app, TN, <- !app_assoc. apply sub_keep. eapply sub_trans; [|exact T]. apply sub_app; [apply sub_refl|]. cbn. rewrite <- !app_assoc. do 2 (apply sub_app; [apply sub_refl|]). apply sub_right, sub_refl.
Qed.
Lemma flush_tokens text : nt (flush text) = text.
Proof. destruct text; [reflexivity|]. cbn. rewrite !app_nil_r. reflexivity. Qed.
Lemma common_ok fuel : forall text items, Forall good items -> length items < fuel -> exists ns, common below fuel text items = Ok ns /\ sublist (nt ns) (text ++ it items).
Proof.
  induction fuel as [|fuel IH]; intros text items G L; [lia|]. cbn [common].
  destruct items as [|i r]; [exists (flush text); split; [reflexivity|]; rewrite flush_tokens; apply sub_left, sub_refl|].
  cbn [length] in L. inversion G as [|? ? Gi Gr]; subst.
  assert (HN : forall n r', (exists a, r = a ++ r') -> sublist (node_tokens n ++ it r') (item_tokens i ++ it r) -> exists ns, (let! ns := common below fuel [] r' in Ok (flush text ++ n :: ns)) = Ok ns /\ sublist (nt ns) (text ++ item_tokens i ++ it r)).
  { intros n r' (a & ->) S. destruct (IH [] r') as (ns & E & T); [eapply good_rest; exact Gr|rewrite app_length in L; lia|]. rewrite E. cbn [bindr]. eexists. split; [reflexivity|]. rewrite flat_map_app, flush_tokens. apply sub_app; [apply sub_refl|].
    cbn [flat_map]. eapply sub_trans; [|exact S]. apply sub_app; [apply sub_refl|exact T]. }
  assert (HS : forall t x, i = Tok t -> step t r x -> exists ns, (let! (n, r0) := x in let! ns := common below fuel [] r0 in Ok (flush text ++ n :: ns)) = Ok ns /\ sublist (nt ns) (text ++ item_tokens i ++ it r)).
  { intros t x -> (n & r' & -> & A & S). cbn [bindr]. apply HN; [exact A|exact S]. }
  assert (HD : exists ns, common below fuel text r = Ok ns /\ sublist (nt ns) (text ++ item_tokens i ++ it r)).
  { destruct (IH text r Gr ltac:(lia)) as (ns & E & T). exists ns. split; [exact E|]. eapply sub_trans; [exact T|]. apply sub_app; [apply sub_refl|apply sub_right, sub_refl]. }
  cbn [flat_map]. destruct i as [t|b n|?|?|?|?|]; try exact HD.
  - assert (HT : exists ns, common below fuel (text ++ [t]) r = Ok ns /\ sublist (nt ns) (text ++ item_tokens (Tok t) ++ it r)).
    { destruct (IH (text ++ [t]) r Gr ltac:(lia)) as (ns & E & T). exists ns. split; [exact E|]. rewrite <- app_assoc in T. exact T. }
    destruct (t_action t); try exact HT.
    + apply (HS t); [reflexivity|]. destruct (is_text t "\lilypond"); [apply lilypond_ok|apply environment_ok]; exact Gr.
    + apply (HS t); [reflexivity|]. apply command_ok. exact Gr.
  - apply HN; [exists []; reflexivity|apply sub_refl].
Qed.
Lemma all_ok items : Forall good items -> exists ns, all_common below items = Ok ns /\ sublist (nt ns) (it items).
Proof. intros G. apply (common_ok _ [] items G). lia. Qed.
Lemma index_parts s items a t r : index s items = Some (a, t, r) -> items = a ++ Tok t :: r.
Proof.
  revert a. induction items as [|i items IH]; intros a E; [discriminate|]. cbn [index] in E.
  assert (H : forall x, match index s items with Some (a, t, b) => Some (i :: a, t, b) | None => None end = Some (x, t, r) -> i :: items = x ++ Tok t :: r).
  { intros x H. destruct (index s items) as [[[a' t'] r']|]; [|discriminate]. injection H as <- <- <-. cbn. f_equal. apply IH. reflexivity. }
  destruct (item_is s i) eqn:IS; [|apply H; exact E]. destruct i as [x|?|?|?|?|?|]; try discriminate. injection E as <- <- <-. reflexivity.
Qed.
Lemma options_ok fuel : forall head items, Forall good items -> length items < fuel ->
  exists os, options below fuel head items = Ok os /\ good_options os /\ (head <> [] -> Forall is_whole os) /\ sublist (ot os) (head ++ it items).
Proof.
  induction fuel as [|fuel IH]; intros head items G L; [lia|]. cbn [options].
  destruct (index "]" items) as [[[a c] r]|] eqn:E1.
  - apply index_parts in E1. subst items. apply Forall_app in G. destruct G as (Ga & Gr). inversion Gr as [|? ? _ Gr']; subst.
    destruct (all_ok a Ga) as (ns & E & T). rewrite E. cbn [bindr].
    set (o := match head with [] => Part ns [c] | _ => Whole (N KOption head ns [c]) end).
    assert (O : sublist (opt_tokens o) (head ++ it a ++ [c])).
    { unfold o. destruct head as [|h head]; [cbn; apply sub_app; [exact T|apply sub_refl]|]. cbn. apply sub_keep. apply sub_app; [apply sub_refl|]. apply sub_app; [exact T|apply sub_refl]. }
    assert (OW : head <> [] -> is_whole o) by (unfold o; destruct head; [contradiction|intros _; exact I]).
    assert (EQ : forall x, head ++ it (a ++ Tok c :: x) = (head ++ it a ++ [c]) ++ it x) by (intros x; rewrite flat_map_app; cbn; rewrite <- !app_assoc; reflexivity).
    destruct (index "[" r) as [[[x h] r']|] eqn:E2.
    + apply index_parts in E2. subst r. apply Forall_app in Gr'. destruct Gr' as (_ & Gr2). inversion Gr2 as [|? ? _ Gr3]; subst.
      destruct (IH [h] r' Gr3) as (os & EO & GO & GW & TO); [rewrite app_length in L; cbn in L; rewrite app_length in L; cbn in L; lia|]. rewrite EO. cbn [bindr]. exists (o :: os). split; [reflexivity|].
      specialize (GW ltac:(discriminate)). split; [exact GW|]. split; [intros H; constructor; auto|]. rewrite EQ. cbn [flat_map]. apply sub_app; [exact O|]. rewrite flat_map_app. apply sub_right. exact TO.
    + exists [o]. split; [reflexivity|]. split; [constructor|]. split; [intros H; constructor; auto|]. rewrite EQ. cbn [flat_map]. rewrite app_nil_r. apply sub_left. exact O.
  - destruct (all_ok items G) as (ns & E & T). rewrite E. cbn [bindr]. eexists. split; [reflexivity|]. split; [constructor|]. split; [intros _; constructor; [exact I|constructor]|]. cbn. rewrite !app_nil_r. apply sub_app; [apply sub_refl|exact T].
Qed.
Lemma option_ok items : Forall good items -> exists os h, option_method below items = Ok (os, h) /\ good_options os /\ sublist (ot os ++ h) (it items) /\
  (forall o r, items = Tok o :: r -> t_action o = ABracket -> reads o "[" -> Forall is_whole os).
Proof.
  intros G. unfold option_method.
  assert (H : forall is, Forall good is -> exists os, (match is with Tok t :: r => if matches below (t_action t) ABracket && is_text t "[" then options below (S (length r)) [t] r else options below (S (length is)) [] is | _ => options below (S (length is)) [] is end) = Ok os /\
    good_options os /\ sublist (ot os) (it is) /\ (forall o r, is = Tok o :: r -> t_action o = ABracket -> reads o "[" -> Forall is_whole os)).
  { intros is Gi. assert (D : (forall o r, is = Tok o :: r -> t_action o = ABracket -> reads o "[" -> False) -> exists os, options below (S (length is)) [] is = Ok os /\ good_options os /\ sublist (ot os) (it is) /\ (forall o r, is = Tok o :: r -> t_action o = ABracket -> reads o "[" -> Forall is_whole os)).
    { intros NO. destruct (options_ok (S (length is)) [] is Gi ltac:(lia)) as (os & E & GO & _ & T). exists os. do 3 (split; [assumption|]). intros o r A B C. destruct (NO o r A B C). }
    destruct is as [|[t|?|?|?|?|?|] r]; try (apply D; discriminate). destruct (matches below (t_action t) ABracket && is_text t "[") eqn:M.
    - inversion Gi as [|? ? _ Gr]; subst. destruct (options_ok (S (length r)) [t] r Gr ltac:(lia)) as (os & E & GO & GW & T). exists os. split; [exact E|]. split; [exact GO|]. split; [exact T|]. intros _ _ _ _ _. apply GW. discriminate.
    - apply D. intros o r' A B C. injection A as -> ->. rewrite B, matches_refl, (proj2 (is_text_spec _ _) C) in M. discriminate. }
  assert (D : exists os h, (let! os := match items with Tok t :: r => if matches below (t_action t) ABracket && is_text t "[" then options below (S (length r)) [t] r else options below (S (length items)) [] items | _ => options below (S (length items)) [] items end in Ok (os, [])) = Ok (os, h) /\ good_options os /\ sublist (ot os ++ h) (it items) /\
    (forall o r, items = Tok o :: r -> t_action o = ABracket -> reads o "[" -> Forall is_whole os)).
  { destruct (H items G) as (os & E & GO & T & W). exists os, []. rewrite E. split; [reflexivity|]. split; [exact GO|]. split; [rewrite app_nil_r; exact T|exact W]. }
  destruct (rev items) as [|[b|?|?|?|?|?|] r] eqn:ER; try exact D. destruct (matches below (t_action b) ABrace) eqn:MB; [|exact D].
  apply rev_last in ER. assert (Gr : Forall good (rev r)) by (rewrite ER in G; apply Forall_app in G; apply G). destruct (H (rev r) Gr) as (os & E & GO & T & W). exists os, [b]. rewrite E. split; [reflexivity|]. split; [exact GO|]. split.
  - rewrite ER, flat_map_app. apply sub_app; [exact T|apply sub_refl].
  - intros o r' A B C. rewrite ER in A. destruct (rev r) as [|x q]; [injection A as -> _; apply matches_brace in MB; congruence|]. injection A as -> _. eapply W; [reflexivity|exact B|exact C].
Qed.
Lemma pop_tokens s items a tl : pop s items = (a, tl) -> it a ++ tl = it items /\ (Forall good items -> Forall good a) /\ ((items = a /\ tl = []) \/ exists c, tl = [c] /\ items = a ++ [Tok c] /\ reads c s).
Proof.
  unfold pop. intros E. assert (D : (items, @nil token) = (a, tl) -> it a ++ tl = it items /\ (Forall good items -> Forall good a) /\ ((items = a /\ tl = []) \/ exists c, tl = [c] /\ items = a ++ [Tok c] /\ reads c s)) by (intros H; injection H as <- <-; split; [apply app_nil_r|split; auto]).
  destruct (rev items) as [|[t|?|?|?|?|?|] r] eqn:ER; try (apply D; exact E). destruct (is_text t s) eqn:R; [|apply D; exact E]. injection E as <- <-. apply rev_last in ER. rewrite ER, flat_map_app. split; [reflexivity|]. split; [rewrite Forall_app; tauto|]. right. exists t. split; [reflexivity|]. split; [reflexivity|apply is_text_spec; exact R].
Qed.
Lemma environment_method_ok items : Forall good items -> exists ns, environment below items = Ok ns /\ sublist (nt ns) (it items).
Proof.
  intros G. unfold environment.
  assert (D : exists ns, (let! ns := all_common below items in Ok (ns ++ [])) = Ok ns /\ sublist (nt ns) (it items)) by (destruct (all_ok items G) as (ns & E & T); rewrite E; eexists; split; [reflexivity|]; rewrite app_nil_r; exact T).
  destruct (rev items) as [|[c|?|?|?|?|?|] [|[b|?|?|?|?|?|] [|[a|?|?|?|?|?|] [|[t|?|?|?|?|?|] p]]]] eqn:E; try exact D.
  destruct (_ && _ && _ && _); [|exact D].
  assert (EI : items = rev p ++ [Tok t; Tok a; Tok b; Tok c]) by (rewrite <- (rev_involutive items), E; cbn; rewrite <- !app_assoc; reflexivity).
  rewrite EI in G |- *. apply Forall_app in G. destruct (all_ok (rev p) (proj1 G)) as (ns & EA & T). rewrite EA. cbn [bindr]. eexists. split; [reflexivity|]. rewrite !flat_map_app. apply sub_app; [exact T|apply sub_refl].
Qed.
Lemma environment_option_ok items : Forall good items -> exists os n, environment_option below items = Ok (os, n) /\ good_options os /\ sublist (ot os ++ nt (name_node n)) (it items).
Proof.
  intros G. unfold environment_option.
  assert (D : exists os n, (let! x := option_method below items in Ok (fst x, @None node)) = Ok (os, n) /\ good_options os /\ sublist (ot os ++ nt (name_node n)) (it items)).
  { destruct (option_ok items G) as (os & h & E & GO & T & _). rewrite E. exists os, None. split; [reflexivity|]. split; [exact GO|]. cbn. rewrite app_nil_r. eapply sub_trans; [|exact T]. apply sub_left, sub_refl. }
  destruct (rev items) as [|[c|?|?|?|?|?|] [|[b|?|?|?|?|?|] [|[a|?|?|?|?|?|] p]]] eqn:E; try exact D. destruct (_ && _ && _); [|exact D].
  assert (EI : items = rev p ++ [Tok a; Tok b; Tok c]) by (rewrite <- (rev_involutive items), E; cbn; rewrite <- !app_assoc; reflexivity).
  rewrite EI in G |- *. apply Forall_app in G. destruct (option_ok (rev p) (proj1 G)) as (os & h & EO & GO & T & _). rewrite EO. cbn [bindr]. eexists. eexists. split; [reflexivity|]. split; [exact GO|]. rewrite flat_map_app. apply sub_app; [|apply sub_refl].
  eapply sub_trans; [|exact T]. apply sub_left, sub_refl.
Qed.

Fixpoint readable_size (t : tree) : nat := match t with TCx _ kids => S (fold_right Nat.add 0 (map readable_size kids)) | TLily o _ _ => S (fold_right Nat.add 0 (map readable_size o)) | _ => 1 end.
Lemma size_in (t : tree) ts : In t ts -> readable_size t <= fold_right Nat.add 0 (map readable_size ts).
Proof. induction ts as [|x ts IH]; intros H; [destruct H|]. destruct H as [->|H]; cbn; [lia|]. specialize (IH H). lia. Qed.
Lemma kids_ok (ts : list tree) : (forall t, In t ts -> readable t -> exists i, transform below t = Ok i /\ good i /\ sublist (item_tokens i) (tree_tokens t)) -> Forall readable ts ->
  exists is, transforms below ts = Ok is /\ Forall good is /\ sublist (it is) (flat_map tree_tokens ts).
Proof.
  intros H F. induction F as [|t ts R F IH]; [exists []; split; [reflexivity|split; [constructor|constructor]]|].
  destruct IH as (is & E & G & T); [intros x X; apply H; right; exact X|]. destruct (H t (or_introl eq_refl) R) as (i & Ei & Gi & Ti). exists (i :: is). cbn. rewrite Ei, E. split; [reflexivity|]. split; [constructor; assumption|apply sub_app; assumption].
Qed.
Lemma readable_ok n : forall t, readable_size t <= n -> readable t -> exists i, transform below t = Ok i /\ good i /\ sublist (item_tokens i) (tree_tokens t).
Proof.
  induction n as [|n IH]; intros t L R; [destruct t; cbn in L; lia|].
  assert (K : forall kids, fold_right Nat.add 0 (map readable_size kids) <= n -> Forall readable kids -> exists is, transforms below kids = Ok is /\ Forall good is /\ sublist (it is) (flat_map tree_tokens kids)).
  { intros kids LK F. apply kids_ok; [|exact F]. intros x X RX. apply IH; [|exact RX]. pose proof (size_in _ _ X). lia. }
  destruct R as [t|us|o kids NR F|k s e o kids M RO F|l kids NB NM F|music tl|o kids music tl A RO F].
  - eexists. split; [reflexivity|]. split; [exact I|apply sub_refl].
  - eexists. split; [reflexivity|]. split; [exact I|apply sub_nothing].
  - cbn in L. destruct (K kids ltac:(lia) F) as (is & E & G & T). rewrite transform_cx, (transforms_cons _ (TTok o) _ (Tok o) _ eq_refl E). cbn [bindr method]. unfold brace.
    destruct (pop "}" (Tok o :: is)) as [a tl] eqn:P. destruct (pop_tokens _ _ _ _ P) as (TP & GP & PP).
    assert (exists b, a = Tok o :: b) as (b & ->). { destruct PP as [(<- & _)|(c & -> & E2 & RC)]; [eexists; reflexivity|]. destruct a as [|x b]; [injection E2 as <- _; contradiction|]. injection E2 as <- _. eexists; reflexivity. }
    cbn [skipn]. assert (GB : Forall good (Tok o :: b)) by (apply GP; constructor; [exact I|exact G]). inversion GB as [|? ? _ GB']; subst. destruct (all_ok b GB') as (ns & EA & TA). rewrite EA. cbn [bindr tokens flat_map app]. eexists. split; [reflexivity|]. split; [exact I|].
    cbn. apply sub_keep. cbn in TP. injection TP as TP. eapply sub_trans; [|exact T]. rewrite <- TP. apply sub_app; [exact TA|apply sub_refl].
  - cbn in L. destruct (K kids ltac:(lia) F) as (is & E & G & T). rewrite transform_cx, (transforms_cons _ (TTok o) _ (Tok o) _ eq_refl E). cbn [bindr method]. unfold math.
    assert (EM : math_class o = Some (k, e)). { unfold math_class, is_text. unfold reads in RO. rewrite RO. cbn in M. destruct M as [M|[M|[M|[M|[]]]]]; injection M as <- <- <-; reflexivity. }
    rewrite EM. destruct (pop e is) as [a tl] eqn:P. destruct (pop_tokens _ _ _ _ P) as (TP & GP & _). destruct (all_ok a (GP G)) as (ns & EA & TA). rewrite EA. cbn [bindr]. eexists. split; [reflexivity|]. split; [exact I|].
    cbn. apply sub_keep. eapply sub_trans; [|exact T]. rewrite <- TP. apply sub_app; [exact TA|apply sub_refl].
  - cbn in L. destruct (K kids ltac:(lia) F) as (is & E & G & T). rewrite transform_cx, E. cbn [bindr]. cbn [tree_tokens]. destruct l; cbn [method]; try contradiction.
    + eexists. split; [reflexivity|]. split; [exact I|]. cbn. rewrite app_nil_r. eapply sub_trans; [|exact T]. clear. induction is as [|i is IH]; [constructor|]. cbn. apply sub_app; [|exact IH]. destruct i; cbn; try apply sub_nothing. apply sub_refl.
    + destruct (option_ok is G) as (os & h & EO & GO & TO & _). rewrite EO. cbn [bindr fst snd]. eexists. split; [reflexivity|]. split; [exact GO|]. eapply sub_trans; [exact TO|exact T].
    + destruct (environment_option_ok is G) as (os & nm & EO & GO & TO). rewrite EO. cbn [bindr fst snd]. eexists. split; [reflexivity|]. split; [exact GO|]. eapply sub_trans; [exact TO|exact T].
    + destruct (environment_method_ok is G) as (ns & EO & TO). rewrite EO. cbn [bindr]. eexists. split; [reflexivity|]. split; [exact I|]. eapply sub_trans; [exact TO|exact T].
    + destruct (environment_method_ok is G) as (ns & EO & TO). rewrite EO. cbn [bindr]. eexists. split; [reflexivity|]. split; [exact I|]. eapply sub_trans; [exact TO|exact T].
  - eexists. split; [reflexivity|]. split; [constructor|apply sub_refl].
  - cbn in L. destruct (K kids ltac:(lia) F) as (is & E & G & T). rewrite transform_lily. cbn [transforms]. rewrite transform_cx, (transforms_cons _ (TTok o) _ (Tok o) _ eq_refl E). cbn [bindr method].
    destruct (option_ok (Tok o :: is)) as (os & h & EO & GO & TO & W); [constructor; [exact I|exact G]|]. rewrite EO. cbn [bindr fst snd lily_options]. eexists. split; [reflexivity|]. split; [eapply W; [reflexivity|exact A|exact RO]|].
    cbn. rewrite app_nil_r. apply (sub_app _ (o :: flat_map tree_tokens kids)); [|apply sub_refl]. eapply sub_trans; [|apply sub_keep; exact T]. eapply sub_trans; [|exact TO]. apply sub_left, sub_refl.
Qed.
(** Whatever the contexts contain, a document is made; its tokens are those of the source, each at most once and in the same order. *)
Theorem C100_total : forall ts, Forall readable ts -> exists ns, root below ts = Ok (N KDocument [] ns []) /\ sublist (flat_map node_tokens ns) (flat_map tree_tokens ts).
Proof.
  intros ts F. destruct (kids_ok ts) as (is & E & G & T); [intros t _ R; eapply readable_ok; [reflexivity|exact R]|exact F|]. destruct (all_ok is G) as (ns & EA & TA). exists ns. unfold root. rewrite E. cbn [bindr]. rewrite EA. split; [reflexivity|]. eapply sub_trans; eassumption.
Qed.
End Total.

(** ** Heads *)
(** The name of an environment is the text between the braces, and it is written as it was; a comment too. *)
Theorem C100_name : forall a b c, reads a "{" -> reads c "}" -> t_text b <> [] -> (forall x, In x (t_text b) -> x <> "{"%char /\ x <> "}"%char) ->
  name_head [a; b; c] = Some (t_text b) /\ name_write (t_text b) = t_text a ++ t_text b ++ t_text c.
Proof.
  intros a b c RA RC NE NB. unfold reads in *. unfold name_write. rewrite RA, RC. split; [|reflexivity]. cbn [name_head]. rewrite RA.
  assert (E : part_of_braces (t_text b) = false).
  { unfold part_of_braces. cbn [existsb]. destruct (t_text b) as [|x r]; [contradiction|]. specialize (NB x (or_introl eq_refl)). destruct NB as (N1 & N2).
    repeat match goal with |- context [list_eq_dec ascii_dec ?p ?q] => let D := fresh in destruct (list_eq_dec ascii_dec p q) as [D|D]; [exfalso; cbn in D; congruence|] end. reflexivity. }
  change (part_of_braces (txt "{")) with true. cbv iota. rewrite E. reflexivity.
Qed.
Theorem C100_comment : forall o ts, reads o "%" -> comment_write (comment_head (o :: ts)) = flat_map t_text (o :: ts).
Proof. intros o ts R. unfold reads in R. unfold comment_write, comment_head. cbn [skipn flat_map]. rewrite R. reflexivity. Qed.
Print Assumptions C100_reads. Print Assumptions C100_tokens. Print Assumptions C100_complete_partial. Print Assumptions C100_total. Print Assumptions C100_name. Print Assumptions C100_comment.
Print Assumptions C100_bracket_finding. Print Assumptions C100_end_finding. Print Assumptions C100_dropped_finding.

(** a \b[x]{y} \begin[o]{v}\lilypond[p]{MUSIC} $z$\end{v} *)
Example C100_witness : let tk := fun n (s : string) a => Token n (txt s) a in
  let word := fun n s => tk n s (AOther 0) in
  let music := N (KOther 0) [tk 9 "c" (AOther 0)] [] [] in
  let yb := TCx LBrace [TTok (tk 5 "{" ABrace); TTok (word 6 "y"); TTok (tk 7 "}" ABrace)] in
  let nm := fun n => [tk n "{" ADelimiter; tk (n + 1) "v" ATag; tk (n + 2) "}" ADelimiter] in
  let z := TCx LMath [TTok (tk 50 "$" (AOther 1)); TTok (word 51 "z"); TTok (tk 52 "$" (AOther 1))] in
  let inner := [TTok (tk 20 "\lilypond" ABuiltin); TTok (tk 21 "[" ADelimiter); TCx LOption [TTok (word 22 "p"); TTok (tk 23 "]" ADelimiter); TTok (tk 24 "{" ABrace)]; TLily [] [music] [tk 25 "}" ABrace]; z] in
  let ts := [TTok (word 0 "a"); TTok (tk 1 "\b" ACommand); TTok (tk 2 "[" ABracket); TCx LOption [TTok (word 3 "x"); TTok (tk 4 "]" ADelimiter)]; yb;
    TTok (tk 10 "\begin" ABuiltin); TTok (tk 11 "[" ABracket); TCx LEnvironmentOption ([TTok (word 12 "o"); TTok (tk 13 "]" ADelimiter)] ++ map TTok (nm 14));
    TCx LEnvironment (inner ++ map TTok (tk 30 "\end" ABuiltin :: nm 31))] in
  exists ns, contents true ts ns /\ Forall readable ts /\ length ns = 3.
Proof.
  cbv zeta. eexists. split; [|split].
  - eapply (contents_text true _ []); [constructor|split; discriminate|intros (A & B); apply B; reflexivity|].
    eapply (contents_command true _ [TTok _; TCx LOption [TTok _; TTok _]; TCx LBrace _]); [reflexivity| |].
    + eapply arguments_both; [reflexivity| |].
      * eapply options_after_closed; [eapply (option_last true _ [TTok _] _ _ []); [eapply (contents_text true _ [] _ []); [constructor|split; discriminate|exact I|constructor]|intros t [E|[]]; injection E as <-; discriminate|reflexivity|intros t []|reflexivity]| | |].
        -- eexists. split; [right; left; reflexivity|reflexivity].
        -- intros (t & r & E & A & _). injection E as <- _. discriminate.
        -- intros (a & b & E & A). apply (app_inj_tail [_] a) in E. destruct E as (_ & E). injection E as <-. discriminate.
      * constructor. eapply (block_brace true _ [TTok _]); [eapply (contents_text true _ [] _ []); [constructor|split; discriminate|exact I|constructor]|reflexivity].
    + eapply (contents_environment true _ [TTok _; TCx LEnvironmentOption _] _ [TCx LEnvironment _] _ _ []); [reflexivity|discriminate| | |constructor].
      * eapply (begins_both true _ [TTok _; TTok _]); [reflexivity| |repeat split].
        eapply options_after_closed; [eapply (option_last true _ [TTok _] _ _ []); [eapply (contents_text true _ [] _ []); [constructor|split; discriminate|exact I|constructor]|intros t [E|[]]; injection E as <-; discriminate|reflexivity|intros t []|reflexivity]| | |].
        -- eexists. split; [right; left; reflexivity|reflexivity].
        -- intros (t & r & E & A & _). injection E as <- _. discriminate.
        -- intros (a & b & E & A). apply (app_inj_tail [_] a) in E. destruct E as (_ & E). injection E as <-. discriminate.
      * eapply (body_contents true _ _ (map TTok [_; _; _; _])); [left; reflexivity| |right; do 4 eexists; split; [|split; [|split; [|split]]]; [| | |reflexivity|reflexivity]; [reflexivity|reflexivity|repeat split]|discriminate].
        eapply (contents_lilypond true _ [TTok _; TCx LOption ([TTok _; TTok _] ++ [TTok _]); TLily [] _ _]); [reflexivity|reflexivity| |].
        -- eapply lily_both; [reflexivity| |reflexivity].
           eapply options_after_closed; [eapply (option_last true _ [TTok _] _ _ []); [eapply (contents_text true _ [] _ []); [constructor|split; discriminate|exact I|constructor]|intros t [E|[]]; injection E as <-; discriminate|reflexivity|intros t []|reflexivity]| | |].
           ++ eexists. split; [right; left; reflexivity|reflexivity].
           ++ intros (t & r & E & A & _). injection E as <- _. discriminate.
           ++ intros (a & b & E & A). apply (app_inj_tail [_] a) in E. destruct E as (_ & E). injection E as <-. discriminate.
        -- eapply contents_block; [|constructor]. eapply (block_math true KMathInlineDollar "$" "$" _ [TTok _]); [right; left; reflexivity|reflexivity| |reflexivity].
           eapply (contents_text true _ [] _ []); [constructor|split; discriminate|exact I|constructor].
  - repeat (apply Forall_cons || apply Forall_nil); try apply readable_token; try (apply readable_context; [discriminate|discriminate|]); try (apply readable_brace; [discriminate|]); cbn [app map]; repeat (apply Forall_cons || apply Forall_nil); try apply readable_token; try apply readable_music;
      try (apply readable_context; [discriminate|discriminate|]; repeat (apply Forall_cons || apply Forall_nil); apply readable_token).
    eapply (readable_math KMathInlineDollar "$" "$"); [right; left; reflexivity|reflexivity|]. repeat (apply Forall_cons || apply Forall_nil); apply readable_token.
  - reflexivity.
Qed.
