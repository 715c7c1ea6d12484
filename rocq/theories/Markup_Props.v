(** C111: the functions in quickly.dom.markup create markup that LilyPond reads as it was meant. *)
From Coq Require Import String Ascii List Arith ZArith QArith Bool Lia.
From Verif Require Import Base Element_Model Scheme_Model Markup_Model Markup_Spec Markup_Proofs.
From Verif Require Heads_Model Heads_Spec Heads_Props.
From Verif Require Element_Spec Element_Props.
Import ListNotations.
Local Open Scope string_scope. Local Open Scope list_scope. Open Scope nat_scope.

(** ** Values *)
Lemma Forall2_length {A B} (R : A -> B -> Prop) a b : Forall2 R a b -> length a = length b.
Proof. induction 1; cbn; congruence. Qed.
Lemma digits_chars b : forall w acc n, Heads_Spec.digits b acc w = Some n -> forallb atom_char w = true.
Proof.
  induction w as [|c w IH]; intros acc n D; [reflexivity|]. cbn [Heads_Spec.digits] in D. destruct (Heads_Spec.digit_value c) as [d|] eqn:E; [|discriminate].
  cbn [forallb]. apply andb_true_intro. split; [clear - E; bits c; (reflexivity || discriminate E)|]. destruct (d <? b)%N; [|discriminate]. eapply IH. exact D.
Qed.
Lemma number_sane r n : sane (Heads_Model.number_write_int r n).
Proof.
  assert (F : forall k, Heads_Model.format_nat (Heads_Model.base r) k <> [] /\ forallb atom_char (Heads_Model.format_nat (Heads_Model.base r) k) = true).
  { intros k. pose proof (Heads_Props.format_nat_ok r k) as N. unfold Heads_Spec.natural in N. destruct (Heads_Model.format_nat (Heads_Model.base r) k) as [|c w]; [discriminate|]. split; [discriminate|]. eapply digits_chars. exact N. }
  unfold sane, Heads_Model.number_write_int, Heads_Model.format_int. split.
  - destruct (n <? 0)%Z; [intros E; apply app_eq_nil in E as [_ E]; discriminate|]. intros E. apply app_eq_nil in E as [_ E]. apply (F (Z.to_N n)). exact E.
  - rewrite forallb_app. apply andb_true_intro. split; [destruct r; reflexivity|]. destruct (n <? 0)%Z; [|apply F]. cbn [forallb]. apply F.
Qed.
Lemma firstn_app_exact {A} (l r : list A) : firstn (length l) (l ++ r) = l.
Proof. rewrite firstn_app, firstn_all, Nat.sub_diag. cbn [firstn]. apply app_nil_r. Qed.
Lemma skipn_app_exact {A} (l r : list A) : skipn (length l) (l ++ r) = r.
Proof. rewrite skipn_app, skipn_all, Nat.sub_diag. reflexivity. Qed.
Fixpoint creates (l : list value) : res (list elem) := match l with [] => Ok [] | v :: r => let! e := create v in let! es := creates r in Ok (e :: es) end.
Lemma create_vlist l : create (VList l) = let! es := creates l in Ok (e_list es).
Proof. reflexivity. Qed.
Lemma create_vtuple l : create (VTuple l) = let! es := creates l in Ok (e_list (firstn (length es - 1) es ++ e_dot :: skipn (length es - 1) es)).
Proof. reflexivity. Qed.
Lemma creates_app a b x y : creates a = Ok x -> creates b = Ok y -> creates (a ++ b) = Ok (x ++ y).
Proof.
  revert x. induction a as [|v a IH]; intros x A B; [injection A as <-; exact B|]. cbn [creates app] in *. destruct (create v) as [e|]; [|discriminate]. cbn [bindr] in *. destruct (creates a) as [es|]; [|discriminate]. injection A as <-. rewrite (IH es eq_refl B). reflexivity.
Qed.
Lemma denotes_wd : forall v d, denotes v d -> exists w, create v = Ok (wd_elem w) /\ wd_datum w = d /\ wd_ok w.
Proof.
  fix IH 3. intros v d D. destruct D as [b|t S|s|l ds F|l v ds d N F D].
  - exists (WAtom (txt (if b then "#t" else "#f"))). destruct b; (split; [reflexivity|split; [vm_compute; reflexivity|split; [discriminate|reflexivity]]]).
  - exists (WAtom t). auto.
  - exists (WStr s). cbn. auto.
  - assert (K : exists ws, creates l = Ok (map wd_elem ws) /\ map wd_datum ws = ds /\ Forall wd_ok ws).
    { induction F as [|v d l ds D F IHF]; [exists []; repeat split; constructor|]. destruct (IH v d D) as (w & C & E & O), IHF as (ws & CS & ES & OS). exists (w :: ws). cbn [creates map]. rewrite C, CS, E, ES. repeat split. constructor; assumption. }
    destruct K as (ws & C & E & O). exists (WList ws). rewrite create_vlist, C. cbn [bindr wd_elem wd_datum]. rewrite E, wd_ok_list. auto.
  - assert (K : exists ws, creates l = Ok (map wd_elem ws) /\ map wd_datum ws = ds /\ Forall wd_ok ws).
    { clear N D. induction F as [|v' d' l ds D F IHF]; [exists []; repeat split; constructor|]. destruct (IH v' d' D) as (w & C & E & O), IHF as (ws & CS & ES & OS). exists (w :: ws). cbn [creates map]. rewrite C, CS, E, ES. repeat split. constructor; assumption. }
    destruct K as (ws & C & E & O), (IH v d D) as (w & CV & EV & OV). exists (WList (ws ++ [WAtom (txt "."); w])).
    rewrite create_vtuple, (creates_app l [v] (map wd_elem ws) [wd_elem w] C) by (cbn; rewrite CV; reflexivity). cbn [bindr].
    rewrite app_length. cbn [length]. replace (length (map wd_elem ws) + 1 - 1) with (length (map wd_elem ws)) by lia. rewrite firstn_app_exact, skipn_app_exact.
    cbn [wd_elem wd_datum]. rewrite !map_app, E, wd_ok_list. cbn [map wd_datum wd_elem]. rewrite EV. split; [reflexivity|]. split; [reflexivity|]. apply Forall_app. split; [exact O|]. repeat constructor; try assumption. discriminate.
Qed.
Lemma pair_wd x y x' y' : denotes x x' -> denotes y y' -> exists w, pair_arg x y = Ok (wm_elem (WScm w)) /\ Scm (wd_datum w) = pair_of x' y' /\ wd_ok w.
Proof.
  intros X Y. assert (D : denotes (VTuple ([x] ++ [y])) (DList ([x'] ++ [DWord (txt "."); y']))) by (constructor; [discriminate|repeat constructor; exact X|exact Y]).
  destruct (denotes_wd _ _ D) as (w & C & E & O). exists (WQuote w). unfold pair_arg, pair. change (create (VTuple [x; y])) with (create (VTuple ([x] ++ [y]))). rewrite C. cbn [bindr wm_elem wd_elem wd_datum]. rewrite E. auto.
Qed.
Lemma value_wm v d : denotes v d -> exists w, a_value v = Ok (wm_elem (WScm w)) /\ wd_datum w = d /\ wd_ok w.
Proof. intros D. destruct (denotes_wd v d D) as (w & C & E & O). exists w. unfold a_value. rewrite C. auto. Qed.

(** A text is read as one markup only. *)
Theorem C111_one_reading : forall arity s m m', reads arity s m -> reads arity s m' -> m = m'.
Proof. intros arity s m m' (N & H) (N' & H'). specialize (H (N + N') ltac:(lia)). specialize (H' (N + N') ltac:(lia)). congruence. Qed.
Section Markup.
Variable is_markup : str -> bool.
Hypothesis markup_words : forall s, is_markup s = true -> s <> [] /\ forallb word_char s = true.
Variable arity : str -> option nat.
Hypothesis arity_special : forall name n, In (name, n) special -> arity (txt name) = Some n.
Variable cs : attrs -> elem -> elem -> str.
Hypothesis cs_between : forall a n m, cs a n m = a_between a.

Definition good (m : mt) (r : res elem) : Prop := exists w, r = Ok (wm_elem w) /\ wm_mt w = m /\ wm_ok w /\ wm_arity arity w.
Lemma good_text s : good (Text s) (auto_arg is_markup (AStr s)).
Proof.
  unfold good, auto_arg. destruct (is_markup s) eqn:I; [exists (WWord s)|exists (WString s)]; cbn; auto.
Qed.
Lemma good_value v d : denotes v d -> good (Scm d) (a_value v).
Proof. intros D. destruct (value_wm v d D) as (w & C & E & O). exists (WScm w). cbn. rewrite E. auto. Qed.
Lemma good_pair x y x' y' : denotes x x' -> denotes y y' -> good (pair_of x' y') (pair_arg x y).
Proof. intros X Y. destruct (pair_wd x y x' y' X Y) as (w & C & E & O). exists (WScm w). split; [exact C|split; [exact E|split; [exact O|exact I]]]. Qed.
Lemma good_sym s : sane s -> good (symbol s) (Ok (sym s)).
Proof. intros S. exists (WScm (WQuote (WAtom s))). cbn. auto. Qed.
Lemma good_scheme s : sane s -> good (Scm (atom s)) (Ok (s_text s)).
Proof. intros S. exists (WScm (WAtom s)). cbn. auto. Qed.
Lemma good_string s : good (Scm (DStr s)) (Ok (s_string s)).
Proof. exists (WScm (WStr s)). cbn. auto. Qed.
Lemma good_all ms rs : Forall2 good ms rs -> exists ws, Forall2 (fun w r => r = Ok (wm_elem w)) ws rs /\ map wm_mt ws = ms /\ Forall wm_ok ws /\ Forall (wm_arity arity) ws.
Proof.
  intros F. induction F as [|m r ms rs (w & R & M & O & A) F (ws & RS & MS & OS & AS)]; [exists []; repeat split; constructor|]. exists (w :: ws). cbn [map]. rewrite M, MS. repeat split; constructor; assumption.
Qed.
Lemma good_command name ms rs : forallb name_char name = true -> arity name = Some (length ms) -> Forall2 good ms rs -> good (Cmd name ms) (command name rs).
Proof.
  intros N A F. destruct (good_all ms rs F) as (ws & R & M & O & AW). exists (WCmd name ws). split.
  - unfold command. clear - R. set (go := fix go l := match l with [] => Ok [] | x :: r => let! e := x in let! es := go r in Ok (e :: es) end).
    assert (K : go rs = Ok (map wm_elem ws)). { induction R as [|w r ws rs E R IH]; [reflexivity|]. cbn [go map]. rewrite E. cbn [bindr]. change ((fix go l := match l with [] => Ok [] | x :: r => let! e := x in let! es := go r in Ok (e :: es) end) rs) with (go rs). rewrite IH. reflexivity. }
    rewrite K. reflexivity.
  - cbn [wm_mt]. rewrite M, wm_ok_cmd, wm_arity_cmd. split; [reflexivity|]. split; [auto|]. split; [|exact AW]. rewrite A, <- M, map_length. reflexivity.
Qed.
Lemma good_group ms l : Forall2 (fun m a => good m (auto_arg is_markup a)) ms l -> good (group ms) (create_list is_markup l).
Proof.
  intros F. assert (G : Forall2 good ms (map (auto_arg is_markup) l)) by (induction F; constructor; assumption).
  destruct (good_all ms _ G) as (ws & R & M & O & A).
  assert (K : auto_args is_markup l = Ok (map wm_elem ws)). { clear - R. revert ws R. induction l as [|a l IH]; intros ws R; inversion R as [|w r ws' rs E R']; subst; [reflexivity|]. cbn [auto_args map]. rewrite E. cbn [bindr]. rewrite (IH _ R'). reflexivity. }
  assert (W : create_list is_markup l = Ok (wm_elem (WGroup ws)) -> group ms = Group ms -> good (group ms) (create_list is_markup l)).
  { intros C GM. exists (WGroup ws). split; [exact C|]. rewrite GM, wm_ok_group, wm_arity_group. cbn [wm_mt]. rewrite M. auto. }
  destruct F as [|m a ms l G1 F]; [apply W; [cbn in K |- *; injection K as <-; reflexivity|reflexivity]|]. destruct F as [|m' a' ms l G2 F]; [exact G1|]. apply W; [|reflexivity]. unfold create_list. rewrite K. reflexivity.
Qed.
Lemma good_auto ms l : Forall2 (fun m a => good m (auto_arg is_markup a)) ms l -> exists ws, auto_args is_markup l = Ok (map wm_elem ws) /\ map wm_mt ws = ms /\ Forall wm_ok ws /\ Forall (wm_arity arity) ws.
Proof.
  intros F. induction F as [|m a ms l (w & R & M & O & A) F (ws & RS & MS & OS & AS)]; [exists []; repeat split; constructor|]. exists (w :: ws). cbn [map auto_args]. rewrite R, RS, M, MS. repeat split; constructor; assumption.
Qed.
Lemma name_special name n : In (name, n) special -> forallb name_char (txt name) = true.
Proof. intros I. assert (K : Forall (fun p => forallb name_char (txt (fst p)) = true) special) by (repeat constructor). rewrite Forall_forall in K. exact (K _ I). Qed.
Lemma good_special name ms rs : In (name, length ms) special -> Forall2 good ms rs -> good (Cmd (txt name) ms) (command (txt name) rs).
Proof. intros I F. apply good_command; [eapply name_special; exact I|apply arity_special; exact I|exact F]. Qed.
Ltac find := cbn [special]; repeat (first [left; reflexivity|right]).
Lemma good_duration s : s <> [] -> forallb word_char s = true -> good (Group [Text s]) (Ok (duration_arg (inl s))).
Proof. intros N W. exists (WGroup [WWord s]). cbn. auto 6. Qed.
Lemma good_made name ms es : In (name, length ms) special -> Forall2 good ms (map Ok es) -> good (Cmd (txt name) ms) (Ok (e_command (txt name) es)).
Proof.
  intros I F. replace (Ok (e_command (txt name) es)) with (command (txt name) (map Ok es)); [apply good_special; assumption|]. unfold command. clear.
  set (go := fix go (l : list (res elem)) := match l with [] => Ok [] | x :: r => let! e := x in let! es := go r in Ok (e :: es) end).
  assert (K : go (map Ok es) = Ok es). { induction es as [|e es IH]; [reflexivity|]. cbn [map go bindr]. change ((fix go l := match l with [] => Ok [] | x :: r => let! e := x in let! es := go r in Ok (e :: es) end) (map Ok es)) with (go (map Ok es)). rewrite IH. reflexivity. }
  rewrite K. reflexivity.
Qed.
Lemma good_char n : good (Scm (DNum (inject_Z n))) (Ok (s_text (Heads_Model.number_write_int Heads_Model.Hex n))).
Proof.
  replace (DNum (inject_Z n)) with (atom (Heads_Model.number_write_int Heads_Model.Hex n)) by (unfold atom; rewrite Heads_Props.C80_scheme_int; reflexivity). apply good_scheme, number_sane.
Qed.
Lemma good_literal s : good (Text s) (Ok (e_string s)).
Proof. exists (WString s). cbn. auto. Qed.
Ltac each := cbn [map]; repeat first [apply Forall2_nil|apply Forall2_cons]; eauto using good_value, good_pair, good_scheme, good_string, good_sym, good_char, good_literal, good_duration.
Lemma good_fn f name ms : fn_means f name ms -> good (Cmd (txt name) ms) (eval_fn f).
Proof.
  intros F. destruct F; cbn [eval_fn]; (apply good_made || apply good_special); try solve [find]; each.
Qed.
Lemma good_of f name m ms e : of_means f name m ms -> good m (Ok e) -> good (Cmd (txt name) ms) (eval_of f e).
Proof. intros F G. destruct F; cbn [eval_of]; apply good_made; try solve [find]; each. Qed.
Lemma good_text_fn f name ms ns l : text_means f name ms -> good (group ns) (create_list is_markup l) -> good (Cmd (txt name) (ms ++ [group ns])) (eval_text is_markup f l).
Proof.
  intros F G. destruct F as [p v v' S D|p v v' S D| | | | |]; cbn [eval_text app].
  1-2: destruct (denotes_wd v v' D) as (w & C & E & O); unfold override, override_lines; rewrite C; cbn [bindr]; apply good_special; [find|]; constructor; [|constructor; [exact G|constructor]];
    exists (WScm (WQuote (WList [WAtom p; WAtom (txt "."); w]))); (split; [reflexivity|]); (split; [cbn; rewrite E; reflexivity|]); (split; [|exact I]); cbn; repeat split; try (apply S); try assumption; discriminate.
  all: apply good_special; [find|each].
Qed.

(** ** Expressions *)
Definition fine (x : expr) (m : mt) : Prop := exists a, eval is_markup x = Ok a /\ good m (auto_arg is_markup a) /\ (is_call x -> exists e, a = AElem e).
Lemma fine_all l ms : Forall2 fine l ms -> exists args, evals is_markup l = Ok args /\ Forall2 (fun m a => good m (auto_arg is_markup a)) ms args.
Proof.
  intros F. induction F as [|x m l ms (a & E & G & _) F (args & ES & GS)]; [exists []; split; [reflexivity|constructor]|]. exists (a :: args). cbn [evals]. rewrite E, ES. split; [reflexivity|constructor; assumption].
Qed.
Lemma fine_made x m r : eval is_markup x = (let! e := r in Ok (AElem e)) -> good m r -> fine x m.
Proof.
  intros E (w & R & M & O & A). rewrite R in E. exists (AElem (wm_elem w)). split; [exact E|]. split; [exists w; auto|]. intros _. eexists. reflexivity.
Qed.
Lemma eval_generic n name l : eval is_markup (XGeneric n name l) = let! l := evals is_markup l in let! e := factory is_markup n name l in Ok (AElem e).
Proof. reflexivity. Qed.
Lemma eval_text_call f l : eval is_markup (XText f l) = let! l := evals is_markup l in let! e := eval_text is_markup f l in Ok (AElem e).
Proof. reflexivity. Qed.
Lemma eval_page s g l : eval is_markup (XPageRef s g l) = let! g := eval is_markup g in let! l := evals is_markup l in let! e := page_ref is_markup s g l in Ok (AElem e).
Proof. reflexivity. Qed.
Lemma evals_app a b x y : evals is_markup a = Ok x -> evals is_markup b = Ok y -> evals is_markup (a ++ b) = Ok (x ++ y).
Proof.
  revert x. induction a as [|v a IH]; intros x A B; [injection A as <-; exact B|]. cbn [evals app] in *. destruct (eval is_markup v) as [e|]; [|discriminate]. cbn [bindr] in *. destruct (evals is_markup a) as [es|]; [|discriminate]. injection A as <-. rewrite (IH es eq_refl B). reflexivity.
Qed.
Lemma good_factory n name l ts ms ns : forallb name_char name = true -> arity name = Some (S n) -> length l = n ->
  Forall2 (fun m a => good m (auto_arg is_markup a)) ms l -> good (group ns) (create_list is_markup ts) -> good (Cmd name (ms ++ [group ns])) (factory is_markup (S n) name (l ++ ts)).
Proof.
  intros N A L F (w & R & M & O & AW). unfold factory. destruct (Nat.ltb_spec (length (l ++ ts)) n) as [X|_]; [rewrite app_length in X; lia|]. rewrite <- L, firstn_app_exact, skipn_app_exact.
  destruct (good_auto ms l F) as (ws & RS & MS & OS & AS). rewrite RS, R. cbn [bindr]. exists (WCmd name (ws ++ [w])). cbn [wm_elem wm_mt]. rewrite !map_app, MS. cbn [map]. rewrite M. split; [reflexivity|]. split; [reflexivity|].
  rewrite wm_ok_cmd, wm_arity_cmd, app_length. cbn [length]. rewrite !Forall_app. repeat split; auto. rewrite A, <- L. f_equal.
  replace (length ws) with (length ms) by (rewrite <- MS; apply map_length). rewrite (Forall2_length _ _ _ F). lia.
Qed.
Lemma means_fine : forall x m, means arity x m -> fine x m.
Proof.
  fix IH 3. intros x m D. assert (IHs : forall l ms, Forall2 (means arity) l ms -> Forall2 fine l ms) by (induction 1; constructor; [apply IH; assumption|assumption]).
  destruct D as [s|v d D|name N A|n name l ts ms ns N A L F G|f name ms F|f x name m ms C D F|f l name ms ns T F|s g l m ns S D F|s d p l r s' d' p' l' r' S D P L R].
  - exists (AStr s). split; [reflexivity|]. split; [apply good_text|contradiction].
  - exists (AVal v). split; [reflexivity|]. split; [apply good_value; exact D|contradiction].
  - eapply fine_made; [reflexivity|]. exists (WCmd name []). split; [reflexivity|]. split; [reflexivity|]. cbn. auto.
  - destruct (fine_all l ms (IHs _ _ F)) as (a & EA & GA). destruct (fine_all ts ns (IHs _ _ G)) as (b & EB & GB). eapply fine_made; [rewrite eval_generic, (evals_app _ _ _ _ EA EB); reflexivity|].
    apply good_factory; [exact N|exact A| |exact GA|apply good_group; exact GB]. rewrite <- L, <- (Forall2_length _ _ _ GA), <- (Forall2_length _ _ _ F). reflexivity.
  - eapply fine_made; [reflexivity|]. apply good_fn. exact F.
  - destruct (IH x m D) as (a & E & G & K). destruct (K C) as (e & ->). eapply fine_made; [cbn [eval]; rewrite E; reflexivity|]. eapply good_of; [exact F|exact G].
  - destruct (fine_all l ns (IHs _ _ F)) as (a & EA & GA). eapply fine_made; [rewrite eval_text_call, EA; reflexivity|]. apply good_text_fn; [exact T|apply good_group; exact GA].
  - destruct (fine_all l ns (IHs _ _ F)) as (a & EA & GA). destruct (IH g m D) as (b & EB & GB & _). eapply fine_made; [rewrite eval_page, EB, EA; reflexivity|]. unfold page_ref. apply good_special; [find|]. constructor; [apply good_sym; exact S|]. constructor; [exact GB|]. constructor; [apply good_group; exact GA|constructor].
  - destruct (IH p p' P) as (a1 & E1 & G1 & _), (IH l l' L) as (a2 & E2 & G2 & _), (IH r r' R) as (a3 & E3 & G3 & _). eapply fine_made; [cbn [eval]; rewrite E1, E2, E3; reflexivity|]. apply good_special; [find|each].
Qed.

(** ** The claims *)
Lemma reads_markup name w : In (name, 1) special -> wm_ok w -> wm_arity arity w -> exists s, write cs (e_markup (txt name) [wm_elem w]) = Ok s /\ reads arity s (Cmd (txt name) [wm_mt w]).
Proof.
  intros I O A. exists (txt "\" ++ txt name ++ txt " " ++ wm_text w). split; [apply markup_writes; assumption|].
  destruct (read_wm arity (WCmd (txt name) [w])) as (N & H).
  - apply wm_ok_cmd. split; [eapply name_special; exact I|]. constructor; [exact O|constructor].
  - apply wm_arity_cmd. split; [apply arity_special; exact I|]. constructor; [exact A|constructor].
  - exists N. intros f L. specialize (H f [] L Logic.I). rewrite app_nil_r in H. cbn [wm_text wm_mt map flat_map] in H. rewrite app_nil_r in H. exact H.
Qed.
(** Markup made with markup(), and with calls of the other functions nested in any way, is written as a text that LilyPond reads as that markup: each command
    with its arguments, each text and each value as it was given; more than one text (or none) is a group.
    Missing for the full claim: with_link() makes another command, fret_diagram(), fret_diagram_terse(), fret_diagram_verbose() and woodwind_diagram() raise
    NameError (see the findings below); the music in score() and score_lines() is not read: for these see [C111_score]. *)
Theorem C111_markup_partial : forall xs ms, Forall2 (means arity) xs ms ->
  exists args e s, evals is_markup xs = Ok args /\ markup is_markup args = Ok e /\ write cs e = Ok s /\ reads arity s (Cmd (txt "markup") [group ms]).
Proof.
  intros xs ms F. destruct (fine_all xs ms) as (args & E & G); [induction F; constructor; [apply means_fine; assumption|assumption]|]. destruct (good_group ms args G) as (w & R & M & O & A).
  destruct (reads_markup "markup" w) as (s & W & RD); [find|exact O|exact A|]. exists args, (e_markup (txt "markup") [wm_elem w]), s. unfold markup. rewrite R, <- M. auto.
Qed.
(** The same for markuplist(), where also one text is a list. *)
Theorem C111_markuplist_partial : forall xs ms, Forall2 (means arity) xs ms ->
  exists args e s, evals is_markup xs = Ok args /\ markuplist is_markup args = Ok e /\ write cs e = Ok s /\ reads arity s (Cmd (txt "markuplist") [Group ms]).
Proof.
  intros xs ms F. destruct (fine_all xs ms) as (args & E & G); [induction F; constructor; [apply means_fine; assumption|assumption]|]. destruct (good_auto ms args G) as (ws & R & M & O & A).
  destruct (reads_markup "markuplist" (WGroup ws)) as (s & W & RD); [find|apply wm_ok_group; exact O|apply wm_arity_group; exact A|]. cbn [wm_mt wm_elem] in *. rewrite M in RD. exists args, (e_markup (txt "markuplist") [e_markuplist (map wm_elem ws)]), s. unfold markuplist. rewrite R. auto.
Qed.
(** A call with too few arguments before the text raises TypeError; a value that is not a bool, number, string, list or tuple raises KeyError. *)
Theorem C111_too_few : forall n name args, length args < n -> factory is_markup (S n) name args = Err TypeError.
Proof. intros n name args L. unfold factory. destruct (Nat.ltb_spec (length args) n) as [_|X]; [reflexivity|lia]. Qed.
Theorem C111_no_arguments : forall name a args, factory is_markup 0 name (a :: args) = Err TypeError.
Proof. reflexivity. Qed.
Theorem C111_other_value : auto_arg is_markup (AVal VOther) = Err KeyError.
Proof. reflexivity. Qed.
End Markup.
Print Assumptions C111_markup_partial.
Print Assumptions C111_markuplist_partial.
Print Assumptions C111_one_reading.
Print Assumptions C111_too_few.

(** ** The functions that are made *)
Section Main.
Variable iskeyword : str -> bool.
Lemma named_function cmd name : named iskeyword cmd name <-> function_name iskeyword cmd = name.
Proof.
  unfold named, function_name. set (t := map (fun c => if Ascii.eqb c "-" then "_"%char else c) cmd).
  assert (U : forall t', Forall2 (fun c d => (c = "-"%char /\ d = "_"%char) \/ (c <> "-"%char /\ d = c)) cmd t' <-> t' = t).
  { subst t. induction cmd as [|c cmd IH]; intros t'.
    - split; [intros F; inversion F; reflexivity|intros ->; constructor].
    - cbn [map]. split.
      + intros F. inversion F as [|? d ? t'' D F']; subst. apply IH in F' as ->. destruct D as [[-> ->]|[N ->]]; [reflexivity|]. apply Ascii.eqb_neq in N. rewrite N. reflexivity.
      + intros ->. constructor; [|apply IH; reflexivity]. destruct (Ascii.eqb_spec c "-"); auto. }
  split.
  - intros (t' & F & [[K ->]|[K ->]]); apply U in F as ->; rewrite K; reflexivity.
  - intros <-. exists t. split; [apply U; reflexivity|]. destruct (iskeyword t); auto.
Qed.
Lemma get_app name a b : get_global name (a ++ b) = match get_global name a with Some v => Some v | None => get_global name b end.
Proof. induction a as [|[k v] a IH]; [reflexivity|]. cbn [app get_global]. destruct (str_eqb k name); [reflexivity|apply IH]. Qed.
Definition step (g : list (str * global)) (p : nat * str) := add_function iskeyword (fst p) g (snd p).
Lemma main_fold table : forall n g, main_loop iskeyword n table g = fold_left step (numbered n table) g.
Proof.
  induction table as [|cmds table IH]; intros n g; [reflexivity|]. cbn [main_loop numbered]. rewrite fold_left_app, IH. f_equal. clear. revert g. induction cmds as [|c cmds IH]; intros g; [reflexivity|]. cbn [fold_left map]. rewrite IH. reflexivity.
Qed.
Lemma str_eqb_same (a : str) : str_eqb a a = true. Proof. unfold str_eqb. destruct (list_eq_dec ascii_dec a a); congruence. Qed.
Lemma str_eqb_other (a b : str) : a <> b -> str_eqb a b = false. Proof. intros N. unfold str_eqb. destruct (list_eq_dec ascii_dec a b); congruence. Qed.
Lemma step_get g p name : get_global name (step g p) = match get_global name g with
  | Some v => Some v | None => if str_eqb (function_name iskeyword (snd p)) name && (fst p <? 5) then Some (Made (fst p) (snd p)) else None end.
Proof.
  destruct p as [n c]. unfold step, add_function. cbn [fst snd]. destruct (get_global (function_name iskeyword c) g) eqn:E.
  - destruct (get_global name g) eqn:G; [reflexivity|]. unfold str_eqb. destruct (list_eq_dec ascii_dec (function_name iskeyword c) name) as [X|X]; [congruence|reflexivity].
  - destruct (n <? 5); [|rewrite andb_false_r; destruct (get_global name g); reflexivity]. rewrite get_app, andb_true_r. destruct (get_global name g); [reflexivity|]. cbn [get_global]. reflexivity.
Qed.
Lemma fold_kept l : forall g name v, get_global name g = Some v -> get_global name (fold_left step l g) = Some v.
Proof. induction l as [|p l IH]; intros g name v G; [exact G|]. cbn [fold_left]. apply IH. rewrite step_get, G. reflexivity. Qed.
Lemma fold_get l : forall g name, get_global name g = None -> get_global name (fold_left step l g) =
  match find (fun p => str_eqb (function_name iskeyword (snd p)) name && (fst p <? 5)) l with Some p => Some (Made (fst p) (snd p)) | None => None end.
Proof.
  induction l as [|p l IH]; intros g name G; [exact G|]. cbn [fold_left find]. destruct (str_eqb _ name && (fst p <? 5)) eqn:E.
  - apply fold_kept. rewrite step_get, G, E. reflexivity.
  - apply IH. rewrite step_get, G, E. reflexivity.
Qed.
(** What is already in the module is kept. *)
Theorem C111_functions_kept : forall table g name v, get_global name g = Some v -> get_global name (main iskeyword table g) = Some v.
Proof. intros table g name v G. unfold main. rewrite main_fold. apply fold_kept, G. Qed.
(** Every command with at most four arguments has a function with its name: what was in the module already, or a function for the first command with that name
    and its number of arguments.  Nothing else is made. *)
Theorem C111_functions_made : forall table g name, get_global name g = None -> forall f,
  get_global name (main iskeyword table g) = Some f <->
  exists n cmd before after, f = Made n cmd /\ numbered 0 table = before ++ (n, cmd) :: after /\ n < 5 /\ named iskeyword cmd name /\
    forall n' cmd', In (n', cmd') before -> ~ named iskeyword cmd' name.
Proof.
  intros table g name G f. unfold main. rewrite main_fold, fold_get by exact G.
  set (P := fun p : nat * str => str_eqb (function_name iskeyword (snd p)) name && (fst p <? 5)).
  assert (PT : forall n c, P (n, c) = true <-> named iskeyword c name /\ n < 5).
  { intros n c. unfold P. cbn [fst snd]. rewrite named_function. destruct (Nat.ltb_spec n 5) as [L|L]; unfold str_eqb; destruct (list_eq_dec ascii_dec (function_name iskeyword c) name); cbn [andb]; split; intros H; try discriminate; try tauto; try (destruct H; lia); try (destruct H; contradiction). }
  assert (FF : find P (numbered 0 (firstn 6 table)) = find P (numbered 0 table)).
  { rewrite <- (firstn_skipn 6 table) at 2. assert (A : forall a b n, numbered n (a ++ b) = numbered n a ++ numbered (n + length a) b).
    { clear. induction a as [|x a IH]; intros b n; cbn [app numbered length]; [rewrite Nat.add_0_r; reflexivity|]. rewrite IH, <- app_assoc. do 3 f_equal. lia. }
    rewrite A. assert (FA : forall a b, find P b = None -> find P (a ++ b) = find P a). { clear. induction a as [|x a IH]; intros b H; [exact H|]. cbn [app find]. destruct (P x); [reflexivity|apply IH, H]. }
    symmetry. apply FA. destruct (Nat.le_gt_cases (length table) 6) as [L|L]; [rewrite skipn_all2 by lia; reflexivity|]. rewrite firstn_length_le by lia. cbn [Nat.add].
    assert (B : forall t k, 5 <= k -> find P (numbered k t) = None).
    { clear - PT. induction t as [|x t IH]; intros k L; [reflexivity|]. cbn [numbered]. assert (FN : forall a b, find P a = None -> find P (a ++ b) = find P b) by (induction a as [|y a IHa]; intros b H; [reflexivity|]; cbn [app find] in *; destruct (P y); [discriminate|apply IHa, H]).
      rewrite FN; [apply IH; lia|]. induction x as [|c x IHx]; [reflexivity|]. cbn [map find]. destruct (P (k, c)) eqn:E; [|exact IHx]. apply PT in E. lia. }
    apply B. lia. }
  rewrite FF. clear FF.
  assert (FB : forall l p, find P l = Some p <-> exists a b, l = a ++ p :: b /\ P p = true /\ forall q, In q a -> P q = false).
  { clear. induction l as [|x l IH]; intros p; cbn [find].
    - split; [discriminate|]. intros (a & b & E & _). destruct a; discriminate.
    - destruct (P x) eqn:E.
      + split; [intros H; injection H as ->; exists [], l; repeat split; [exact E|intros q []]|]. intros (a & b & L & Pp & N). destruct a as [|y a]; [injection L as -> _; reflexivity|]. injection L as -> _. rewrite (N y (or_introl eq_refl)) in E. discriminate.
      + rewrite IH. split; intros (a & b & L & Pp & N).
        * exists (x :: a), b. rewrite L. split; [reflexivity|]. split; [exact Pp|]. intros q [<-|I]; [exact E|apply N, I].
        * destruct a as [|y a]; [injection L as -> _; congruence|]. injection L as -> ->. exists a, b. repeat split; [exact Pp|]. intros q I. apply N. right. exact I. }
  assert (MONO : forall a n c b, numbered 0 table = a ++ (n, c) :: b -> forall n' c', In (n', c') a -> n' <= n).
  { clear. assert (H : forall t k a n c b, numbered k t = a ++ (n, c) :: b -> k <= n /\ forall n' c', In (n', c') a -> n' <= n).
    { induction t as [|x t IH]; intros k a n c b E; [destruct a; discriminate|]. cbn [numbered] in E. revert a E. induction x as [|y x IHx]; intros a E.
      - cbn [map app] in E. destruct (IH _ _ _ _ _ E) as [L H]. split; [lia|exact H].
      - destruct a as [|q a]; cbn [map app] in E; [injection E as <- _ _; split; [lia|intros ? ? []]|]. injection E as <- E. destruct (IHx a E) as [L H]. split; [exact L|]. intros n' c' [X|I]; [injection X as <- _; exact L|eapply H; exact I]. }
    intros a n c b E. apply (H _ _ _ _ _ _ E). }
  split.
  - destruct (find P (numbered 0 table)) as [[n c]|] eqn:F; [|discriminate]. intros H. injection H as <-. apply FB in F as (a & b & E & Pp & N). apply PT in Pp as [NM L]. exists n, c, a, b. cbn [fst snd]. repeat split; auto.
    intros n' c' I NM'. specialize (N _ I). pose proof (MONO _ _ _ _ E _ _ I) as LE. assert (X : P (n', c') = true) by (apply PT; split; [exact NM'|lia]). congruence.
  - intros (n & c & a & b & -> & E & L & NM & N). assert (F : find P (numbered 0 table) = Some (n, c)).
    { apply FB. exists a, b. split; [exact E|]. split; [apply PT; auto|]. intros [n' c'] I. destruct (P (n', c')) eqn:X; [|reflexivity]. apply PT in X as [X _]. exfalso. exact (N _ _ I X). }
    rewrite F. reflexivity.
Qed.
End Main.
Print Assumptions C111_functions_kept.
Print Assumptions C111_functions_made.
Example C111_functions_witness :
  let kw s := str_eqb s (txt "with") in
  let g := [(txt "with_url", Defined)] in
  let m := main kw [[txt "null"]; [txt "bold"; txt "with"]; [txt "with-url"; txt "with-color"]; []; []; [txt "fill-with-pattern"]] g in
  get_global (txt "with_url") m = Some Defined /\ get_global (txt "with_color") m = Some (Made 2 (txt "with-color")) /\ get_global (txt "with_") m = Some (Made 1 (txt "with")) /\
  get_global (txt "fill_with_pattern") m = None /\ named kw (txt "with-color") (txt "with_color").
Proof. repeat split. apply named_function. reflexivity. Qed.

(** ** Witness: words are what the reader takes for words; three of the commands in parce's table. *)
Definition ex_word (s : str) : bool := match s with [] => false | _ => forallb word_char s end.
Definition ex_arity (s : str) : option nat :=
  match find (fun p => str_eqb (txt (fst p)) s) (special ++ [("bold", 1); ("with-color", 2); ("null", 0)]) with Some (_, n) => Some n | None => None end.
Definition ex_exprs : list expr :=
  [XGeneric 1 (txt "bold") [XStr (txt "two"); XStr (txt "say ""x""")]; XGeneric 0 (txt "null") [];
   XText (FTranslate (VNumber (txt "1.5")) (VNumber (txt "-2"))) [XGeneric 2 (txt "with-color") [XVal (VList [VNumber (txt "1"); VBool true]); XStr (txt "w")]]; XCall (FChar 65)].
Definition ex_meant : list mt :=
  [Cmd (txt "bold") [Group [Text (txt "two"); Text (txt "say ""x""")]]; Cmd (txt "null") [];
   Cmd (txt "translate") [pair_of (atom (txt "1.5")) (DNum (-2)); Cmd (txt "with-color") [Scm (DList [DNum 1; DWord (txt "#t")]); Text (txt "w")]];
   Cmd (txt "char") [Scm (DNum 65)]].
Example C111_witness :
  (forall s, ex_word s = true -> s <> [] /\ forallb word_char s = true) /\ (forall name n, In (name, n) special -> ex_arity (txt name) = Some n) /\
  Forall2 (means ex_arity) ex_exprs ex_meant /\
  (let! args := evals ex_word ex_exprs in let! e := markup ex_word args in write concat_default e) =
    Ok (txt "\markup { \bold { two ""say \""x\"""" } \null \translate #'(1.5 . -2) \with-color #(1 #t) w \char ##x41 }").
Proof.
  split; [intros [|c s] H; [discriminate|split; [discriminate|exact H]]|]. split.
  - intros name n I. assert (K : Forall (fun p => ex_arity (txt (fst p)) = Some (snd p)) special) by (repeat constructor). rewrite Forall_forall in K. exact (K _ I).
  - split; [|vm_compute; reflexivity]. assert (SN : forall t, match t with [] => false | _ => forallb atom_char t end = true -> sane t) by (intros [|c t] H; [discriminate|split; [discriminate|exact H]]).
    constructor; [|constructor; [|constructor; [|constructor; [|constructor]]]].
    + apply (means_generic ex_arity 0 (txt "bold") [] _ [] [Text (txt "two"); Text (txt "say ""x""")]); try reflexivity; repeat constructor.
    + constructor; reflexivity.
    + apply (means_text ex_arity (FTranslate _ _) _ "translate" [pair_of _ _] [_]).
      * constructor; [constructor; apply SN; reflexivity|]. change (DNum (-2)) with (atom (txt "-2")). constructor. apply SN. reflexivity.
      * constructor; [|constructor]. apply (means_generic ex_arity 1 (txt "with-color") [_] [_] [_] [Text (txt "w")]); try reflexivity; (constructor; [|constructor]); [|constructor].
        constructor. constructor. change (DNum 1) with (atom (txt "1")). constructor; [constructor; apply SN; reflexivity|]. constructor; [|constructor]. apply (denotes_bool true).
    + constructor. change (DNum 65) with (DNum (inject_Z 65)). constructor.
Qed.

(** ** score() and score_lines() *)
Lemma score_written head es ts cs :
  Forall Element_Spec.has_origins es -> Forall2 Element_Spec.is_text (flat_map Element_Spec.texts es) ts ->
  head <> [] ->
  let e := E (spaced_attrs Block head (txt "}") [nl] (txt " ") (txt " ") (txt " ") [nl]) es in
  (forall w, In (Element_Spec.Req w) (Element_Spec.layout cs e) -> Element_Spec.blank w) ->
  exists s, write cs e = Ok s /\ Element_Spec.spaced (head :: filter truthy ts ++ [txt "}"]) s.
Proof.
  intros O F N e B.
  assert (G : forall l, Forall Element_Spec.has_origins l -> (fix go (l : list elem) : Prop := match l with [] => True | n :: r => Element_Spec.has_origins n /\ go r end) l)
    by (intros l H; induction H; split; assumption).
  assert (K : forall l, (fix go (l : list elem) := match l with [] => [] | n :: r => Element_Spec.texts n ++ go r end) l = flat_map Element_Spec.texts l)
    by (induction l; [reflexivity|cbn; congruence]).
  assert (T : Element_Spec.texts e = Ok head :: flat_map Element_Spec.texts es ++ [Ok (txt "}")]).
  { unfold e. cbn [Element_Spec.texts]. rewrite K. reflexivity. }
  destruct (Element_Props.C48_order cs e (head :: ts ++ [txt "}"])) as (s & W & S).
  - split; [right; discriminate|apply G; exact O].
  - rewrite T. constructor; [reflexivity|]. apply Forall2_app; [exact F|repeat constructor].
  - exact B.
  - exists s. split; [exact W|]. cbn [filter] in S. destruct head as [|c h]; [congruence|]. cbn [truthy] in S. rewrite filter_app in S. exact S.
Qed.
(** The given elements are written in order between the braces of the command, with only white space between them. *)
Theorem C111_score : forall es ts cs, Forall Element_Spec.has_origins es -> Forall2 Element_Spec.is_text (flat_map Element_Spec.texts es) ts ->
  (forall w, In (Element_Spec.Req w) (Element_Spec.layout cs (score es)) -> Element_Spec.blank w) ->
  (forall w, In (Element_Spec.Req w) (Element_Spec.layout cs (score_lines es)) -> Element_Spec.blank w) ->
  (exists s, write cs (score es) = Ok s /\ Element_Spec.spaced (txt "\score {" :: filter truthy ts ++ [txt "}"]) s) /\
  (exists s, write cs (score_lines es) = Ok s /\ Element_Spec.spaced (txt "\score-lines {" :: filter truthy ts ++ [txt "}"]) s).
Proof. intros es ts cs O F B1 B2. split; apply score_written; try assumption; discriminate. Qed.
Print Assumptions C111_score.
Example C111_score_witness :
  let es := [e_command (txt "new") [e_text (txt "Staff")]; e_text (txt "d4")] in
  Forall Element_Spec.has_origins es /\ Forall2 Element_Spec.is_text (flat_map Element_Spec.texts es) [txt "\new"; txt "Staff"; txt "d4"] /\
  (forall w, In (Element_Spec.Req w) (Element_Spec.layout concat_default (score es)) -> Element_Spec.blank w) /\
  write concat_default (score es) = Ok (txt "\score { \new Staff d4 }") /\ write concat_default (score_lines es) = Ok (txt "\score-lines { \new Staff d4 }").
Proof.
  split; [constructor; [|constructor; [|constructor]]; cbn; repeat split; right; discriminate|]. split; [repeat constructor|].
  split; [|split; vm_compute; reflexivity].
  intros w I. cbn in I. repeat (destruct I as [I|I]; [try discriminate; injection I as <-; intros c J; cbn in J; repeat (destruct J as [<-|J]; [reflexivity|]); destruct J|]). destruct I.
Qed.

(** ** Findings *)
(** with_link() makes the command \with-color, that LilyPond gives another meaning. *)
Theorem C111_with_link_finding : exists e s, with_link ex_word (txt "intro") [AStr (txt "here")] = Ok e /\ write concat_default e = Ok s /\
  reads ex_arity s (Cmd (txt "with-color") [symbol (txt "intro"); Text (txt "here")]) /\ ~ reads ex_arity s (Cmd (txt "with-link") [symbol (txt "intro"); Text (txt "here")]).
Proof.
  eexists _, _. split; [reflexivity|]. split; [vm_compute; reflexivity|].
  assert (R : reads ex_arity (txt "\with-color #'intro here") (Cmd (txt "with-color") [symbol (txt "intro"); Text (txt "here")])).
  { destruct (read_wm ex_arity (WCmd (txt "with-color") [WScm (WQuote (WAtom (txt "intro"))); WWord (txt "here")])) as (N & H); [cbn; repeat split; discriminate|cbn; repeat split|]. exists N. intros f L. exact (H f [] L I). }
  split; [exact R|]. intros R'. pose proof (C111_one_reading ex_arity _ _ _ R R') as E. discriminate E.
Qed.
Print Assumptions C111_with_link_finding.
(** These functions use names that are not defined, whatever the arguments are. *)
Theorem C111_name_error_finding : (forall s, fret_diagram s = Err NameError) /\ (forall s, fret_diagram_terse s = Err NameError) /\
  (forall e, fret_diagram_verbose e = Err NameError) /\ (forall i e, woodwind_diagram i e = Err NameError).
Proof. repeat split. Qed.
Print Assumptions C111_name_error_finding.
(** A duration with a space in it, given as string to rest() or note(), is more than one word. *)
Theorem C111_duration_finding : exists e s, rest (inl (txt "4 .")) = Ok e /\ write concat_default e = Ok s /\ reads ex_arity s (Cmd (txt "rest") [Group [Text (txt "4"); Text (txt ".")]]).
Proof.
  eexists _, _. split; [reflexivity|]. split; [vm_compute; reflexivity|].
  destruct (read_wm ex_arity (WCmd (txt "rest") [WGroup [WWord (txt "4"); WWord (txt ".")]])) as (N & H); [cbn; repeat split; discriminate|cbn; repeat split|]. exists N. intros f L. exact (H f [] L I).
Qed.
Print Assumptions C111_duration_finding.
