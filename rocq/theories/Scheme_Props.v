(** C96, C97: reading Scheme, and Scheme made of Python values. *)
From Coq Require Import String Ascii List Arith PeanoNat Bool Lia.
From Verif Require Import Base Element_Model Scheme_Model Scheme_Spec.
From Verif Require Heads_Model.
Import ListNotations.
Local Open Scope string_scope.
Local Open Scope list_scope.
Open Scope nat_scope.

(** ** C96 *)
Section C96.
Variable value : nat -> list token -> bool.
Notation transform := (transform value).
Notation datum := (datum value). Notation data := (data value). Notation contents := (contents value).

Fixpoint transforms (k : list tree) : res (list item) :=
  match k with [] => Ok [] | c :: r => let! i := transform c in let! l := transforms r in Ok (i :: l) end.
Lemma transform_cx l kids : transform (TCx l kids) = let! items := transforms kids in let! n := method value l items in Ok (Elem n).
Proof. reflexivity. Qed.
Lemma transforms_app a b x y : transforms a = Ok x -> transforms b = Ok y -> transforms (a ++ b) = Ok (x ++ y).
Proof.
  revert x. induction a as [|c a IH]; intros x A B; [injection A as <-; exact B|]. cbn in *. destruct (transform c) as [i|]; [|discriminate]. cbn [bindr] in *.
  destruct (transforms a) as [l|]; [|discriminate]. injection A as <-. rewrite (IH l) by auto. reflexivity.
Qed.
Lemma transforms_tokens ts : transforms (map TTok ts) = Ok (map Tok ts).
Proof. induction ts as [|t ts IH]; [reflexivity|]. cbn. rewrite IH. reflexivity. Qed.
Lemma tokens_tok ts : tokens (map Tok ts) = ts.
Proof. induction ts as [|t ts IH]; [reflexivity|]. cbn. f_equal. exact IH. Qed.

Lemma wrap_cons q quotes n : wrap (q :: quotes) n = N KQuote [q] [wrap quotes n] [].
Proof. unfold wrap. cbn [rev]. rewrite fold_left_app. reflexivity. Qed.
Lemma is_quote_spec t : is_quote (t_action t) = true <-> quote_token t.
Proof. unfold quote_token. destruct (t_action t); cbn; split; congruence. Qed.
Lemma mapping_spec t k : common_mapping (t_action t) = Some k <-> token_class t k.
Proof.
  split.
  - destruct (t_action t) eqn:A; cbn; intros E; try discriminate; injection E as <-; constructor; auto.
  - intros C. inversion C; subst; try (rewrite H; reflexivity). destruct H as [-> | ->]; reflexivity.
Qed.
Lemma class_no_quote t k : token_class t k -> is_quote (t_action t) = false.
Proof. intros C. inversion C; subst; try (rewrite H; reflexivity). destruct H as [-> | ->]; reflexivity. Qed.

Scheme datum_m := Minimality for Scheme_Spec.datum Sort Prop
with data_m := Minimality for Scheme_Spec.data Sort Prop
with contents_m := Minimality for Scheme_Spec.contents Sort Prop.
Combined Scheme reading_m from datum_m, data_m, contents_m.

Lemma closes_spec i t : transform t = Ok i -> (closes i = true <-> closing t).
Proof.
  intros T. destruct t as [t|l kids|[n|]].
  - injection T as <-. cbn. destruct (list_eq_dec ascii_dec (t_text t) [")"%char]) as [E|E].
    + split; [intros _; exists t; auto|reflexivity].
    + split; [discriminate|]. intros (c & Q & H). injection Q as <-. contradiction.
  - rewrite transform_cx in T. destruct (transforms kids); [|discriminate]. cbn [bindr] in T. destruct (method value l a); [|discriminate]. injection T as <-. cbn.
    split; [discriminate|]. intros (c & Q & _). discriminate.
  - injection T as <-. split; [discriminate|]. intros (c & Q & _). discriminate.
  - injection T as <-. split; [discriminate|]. intros (c & Q & _). discriminate.
Qed.

Lemma silent_common : forall l, Forall silent l -> forall quotes, exists items, transforms l = Ok items /\ common quotes items = ([], None).
Proof.
  induction l as [|t l IH]; intros F quotes; [exists []; split; reflexivity|]. inversion F as [|? ? S F']; subst. destruct S as [-> |(q & -> & Q)]; cbn.
  - destruct (IH F' quotes) as (items & -> & C). eexists. split; [reflexivity|]. exact C.
  - destruct (IH F' (quotes ++ [q])) as (items & -> & C). eexists. split; [reflexivity|]. cbn. rewrite (proj2 (is_quote_spec q) Q). exact C.
Qed.
Lemma block_method l k items : block_class l k -> method value l items = read_block k items.
Proof. intros [(-> & ->)|(-> & ->)]; reflexivity. Qed.
Lemma number_method r k : number_class r k -> radix_mapping (match r with None | Some 0 => 10 | Some r => r end) = Some k.
Proof. intros [(-> & [-> |[-> | ->]])|[(-> & ->)|[(-> & ->)|(-> & ->)]]]; reflexivity. Qed.
Lemma transforms_last a b : forall items, transforms (a ++ [b]) = Ok items -> exists x y, items = x ++ [y] /\ transforms a = Ok x /\ transform b = Ok y.
Proof.
  induction a as [|c a IH]; intros items T; cbn in T.
  - destruct (transform b) as [y|]; [|discriminate]. injection T as <-. exists [], y. auto.
  - destruct (transform c) as [i|] eqn:C; [|discriminate]. cbn [bindr] in T. destruct (transforms (a ++ [b])) as [l|]; [|discriminate]. injection T as <-.
    destruct (IH l eq_refl) as (x & y & -> & A & B). exists (i :: x), y. cbn. rewrite C, A. auto.
Qed.

Lemma reads_sound :
  (forall ts n r, datum ts n r -> forall quotes items', transforms r = Ok items' -> exists items, transforms ts = Ok items /\
     common quotes items = (wrap quotes n :: fst (common [] items'), snd (common [] items'))) /\
  (forall ts ns, data ts ns -> exists items, transforms ts = Ok items /\ common [] items = (ns, None)) /\
  (forall t n, contents t n -> transform t = Ok (Elem n)).
Proof.
  apply reading_m.
  - intros t k r C quotes items' T. cbn. rewrite T. eexists. split; [reflexivity|]. cbn. rewrite (class_no_quote t k C), (proj2 (mapping_spec t k) C).
    destruct (common [] items'). reflexivity.
  - intros c n r _ IH quotes items' T. cbn. rewrite IH, T. eexists. split; [reflexivity|]. cbn. destruct (common [] items'). reflexivity.
  - intros r n r' _ IH quotes items' T. destruct (IH quotes items' T) as (items & A & B). cbn. rewrite A. eexists. split; [reflexivity|]. exact B.
  - intros q r n r' Q _ IH quotes items' T. destruct (IH (quotes ++ [q]) items' T) as (items & A & B). cbn. rewrite A. eexists. split; [reflexivity|]. cbn.
    rewrite (proj2 (is_quote_spec q) Q), B. do 2 f_equal. clear. induction quotes as [|p quotes IH]; [apply wrap_cons|]. cbn [app]. rewrite !wrap_cons, IH. reflexivity.
  - intros l F. apply silent_common. exact F.
  - intros ts n r ns _ IHd _ (items' & T & C). destruct (IHd [] items' T) as (items & A & B). exists items. split; [exact A|]. rewrite B, C. reflexivity.
  - reflexivity.
  - intros ts ns _ (items & T & C). rewrite transform_cx, T. cbn. unfold read_root. rewrite C. reflexivity.
  - intros l k o ts c ns BC E _ (items & T & C). rewrite transform_cx.
    assert (A : transforms (TTok o :: ts ++ [TTok c]) = Ok (Tok o :: items ++ [Tok c])) by (cbn; rewrite (transforms_app _ [TTok c] _ [Tok c] T eq_refl); reflexivity).
    rewrite A. cbn [bindr]. rewrite (block_method _ _ _ BC). unfold read_block. cbn [rev]. rewrite rev_app_distr. cbn [rev app].
    rewrite (proj2 (closes_spec (Tok c) (TTok c) eq_refl)) by (exists c; auto).
    change (Tok o :: items ++ [Tok c]) with ((Tok o :: items) ++ [Tok c]). rewrite removelast_last. cbn [skipn]. rewrite C. reflexivity.
  - intros l k o ts ns BC NC _ (items & T & C). rewrite transform_cx. cbn. rewrite T. cbn [bindr]. rewrite (block_method _ _ _ BC). unfold read_block.
    assert (L : exists x y, Tok o :: items = x ++ [y] /\ closes y = false).
    { destruct (exists_last (l := TTok o :: ts)) as (a & b & E); [discriminate|]. assert (T' : transforms (a ++ [b]) = Ok (Tok o :: items)) by (rewrite <- E; cbn; rewrite T; reflexivity).
      destruct (transforms_last a b _ T') as (x & y & Q & _ & B). exists x, y. split; [exact Q|]. specialize (NC a b E). destruct (closes y) eqn:CY; [|reflexivity].
      exfalso. apply NC, (closes_spec y b B). exact CY. }
    destruct L as (x & y & Q & CY). rewrite Q at 1. rewrite rev_app_distr. cbn [rev app]. rewrite CY. cbn [skipn]. rewrite C. reflexivity.
  - intros r k ts NC H. rewrite transform_cx, transforms_tokens. cbn [bindr method]. unfold read_number. rewrite (number_method r k NC), tokens_tok, H. reflexivity.
  - intros r k ts NC H. rewrite transform_cx, transforms_tokens. cbn [bindr method]. unfold read_number. rewrite (number_method r k NC), tokens_tok, H. reflexivity.
  - intros ts. rewrite transform_cx, transforms_tokens. cbn [bindr method]. rewrite tokens_tok. reflexivity.
  - intros ts. rewrite transform_cx, transforms_tokens. cbn [bindr method]. rewrite tokens_tok. reflexivity.
  - intros ts. rewrite transform_cx, transforms_tokens. cbn [bindr method]. rewrite tokens_tok. reflexivity.
Qed.

Lemma tree_ind' (P : tree -> Prop) : (forall t, P (TTok t)) -> (forall l k, Forall P k -> P (TCx l k)) -> (forall n, P (TOther n)) -> forall t, P t.
Proof.
  intros H1 H2 H3. fix IH 1. intros [t|l k|n]; [apply H1| |apply H3]. apply H2. induction k as [|c k IHk]; constructor; [apply IH|exact IHk].
Qed.

(** [p] are silent trees, [quotes] the quotes in it *)
Inductive pending : list tree -> list token -> Prop :=
| pending_nil : pending [] []
| pending_skip p qs : pending p qs -> pending (TOther None :: p) qs
| pending_quote q p qs : quote_token q -> pending p qs -> pending (TTok q :: p) (q :: qs).
Lemma pending_silent p qs : pending p qs -> Forall silent p.
Proof. induction 1; constructor; try assumption; [left; reflexivity|right; eauto]. Qed.
Lemma pending_skip_end p qs : pending p qs -> pending (p ++ [TOther None]) qs.
Proof. induction 1; cbn; [repeat constructor|constructor; assumption|constructor; assumption]. Qed.
Lemma pending_quote_end p qs q : quote_token q -> pending p qs -> pending (p ++ [TTok q]) (qs ++ [q]).
Proof. intros Q. induction 1; cbn; [repeat constructor; exact Q|constructor; assumption|constructor; assumption]. Qed.
Lemma pending_datum p qs ts n r : pending p qs -> datum ts n r -> datum (p ++ ts) (wrap qs n) r.
Proof.
  intros P D. induction P as [|p qs P IH|q p qs Q P IH]; cbn [app]; [exact D|apply datum_skip; exact IH|]. rewrite wrap_cons. apply datum_quote; assumption.
Qed.
Lemma common_data : forall kids items, transforms kids = Ok items -> Forall (fun t => forall n, transform t = Ok (Elem n) -> contents t n) kids ->
  forall p qs ns, pending p qs -> common qs items = (ns, None) -> data (p ++ kids) ns.
Proof.
  induction kids as [|c kids IH]; intros items T F p qs ns P C.
  - injection T as <-. injection C as <-. rewrite app_nil_r. apply data_end. eapply pending_silent. exact P.
  - cbn in T. destruct (transform c) as [i|] eqn:TC; [|discriminate]. cbn [bindr] in T. destruct (transforms kids) as [l|] eqn:TK; [|discriminate]. injection T as <-.
    inversion F as [|? ? HC F']; subst. destruct i as [t|n|]; cbn in C.
    + assert (EC : c = TTok t). { destruct c as [t'|lx k|[n|]]; cbn in TC; try congruence. change (transform (TCx lx k) = Ok (Tok t)) in TC. rewrite transform_cx in TC. destruct (transforms k); [|discriminate]. cbn [bindr] in TC. destruct (method value lx a); discriminate. }
      subst c. destruct (is_quote (t_action t)) eqn:Q.
      * apply is_quote_spec in Q. replace (p ++ TTok t :: kids) with ((p ++ [TTok t]) ++ kids) by (rewrite <- app_assoc; reflexivity).
        eapply IH; [reflexivity|exact F'|apply pending_quote_end; eassumption|exact C].
      * destruct (common_mapping (t_action t)) as [k|] eqn:M; [|discriminate]. destruct (common [] l) as [l' e] eqn:CL. injection C as <- ->.
        eapply data_more; [eapply pending_datum; [exact P|apply datum_token, mapping_spec, M]|]. apply (IH l eq_refl F' [] []); [constructor|exact CL].
    + destruct (common [] l) as [l' e] eqn:CL. injection C as <- ->.
      eapply data_more; [eapply pending_datum; [exact P|apply datum_context, HC; exact TC]|]. apply (IH l eq_refl F' [] []); [constructor|exact CL].
    + assert (EC : c = TOther None). { destruct c as [t'|lx k|[n|]]; cbn in TC; try congruence. change (transform (TCx lx k) = Ok NoElem) in TC. rewrite transform_cx in TC. destruct (transforms k); [|discriminate]. cbn [bindr] in TC. destruct (method value lx a); discriminate. }
      subst c. replace (p ++ TOther None :: kids) with ((p ++ [TOther None]) ++ kids) by (rewrite <- app_assoc; reflexivity).
      eapply IH; [reflexivity|exact F'|apply pending_skip_end; eassumption|exact C].
Qed.
Lemma number_method' r k : radix_mapping (match r with None | Some 0 => 10 | Some r => r end) = Some k -> number_class r k.
Proof.
  unfold number_class. destruct r as [r|]; [|intros E; injection E as <-; auto]. do 17 (destruct r as [|r]; [cbn; intros E; try discriminate E; injection E as <-; tauto|]). discriminate.
Qed.
Lemma reads_complete : forall t, shaped t -> forall n, transform t = Ok (Elem n) -> contents t n.
Proof.
  refine (tree_ind' _ _ _ _); [discriminate| |intros [m|] _ n E; [injection E as <-; constructor|discriminate]].
  intros l k IH S n T. rewrite transform_cx in T. destruct (transforms k) as [items|] eqn:TK; [|discriminate]. cbn [bindr] in T.
  destruct (method value l items) as [n'|] eqn:M; [|discriminate]. injection T as ->.
  inversion S as [| |ts F|l' o ts L NO F|l' ts N1 N2 N3]; subst.
  - cbn in M. unfold read_root in M. destruct (common [] items) as [ns [e|]] eqn:C; [discriminate|]. injection M as <-. constructor.
    apply (common_data k items TK) with (p := []) (qs := []); [|constructor|exact C]. rewrite Forall_forall in *. auto.
  - assert (B : exists kk, block_class l kk) by (destruct L as [-> | ->]; eexists; [left|right]; auto). destruct B as (kk & B). rewrite (block_method _ _ _ B) in M.
    cbn in TK. destruct (transforms ts) as [its|] eqn:TT; [|discriminate]. injection TK as <-. unfold read_block in M.
    assert (IH' : Forall (fun t => forall n, transform t = Ok (Elem n) -> contents t n) ts). { inversion IH; subst. rewrite Forall_forall in *. auto. }
    destruct (exists_last (l := TTok o :: ts)) as (a & b & E); [discriminate|].
    assert (T' : transforms (a ++ [b]) = Ok (Tok o :: its)) by (rewrite <- E; cbn; rewrite TT; reflexivity).
    destruct (transforms_last a b _ T') as (x & y & Q & TA & TB). rewrite Q in M at 1. rewrite rev_app_distr in M. cbn [rev app] in M.
    destruct (closes y) eqn:CY.
    + apply (closes_spec y b TB) in CY as (c & -> & EC). injection TB as <-. destruct a as [|a0 a].
      * injection E as -> ->. contradiction.
      * cbn [app] in E. injection E as <- ->. cbn in TA. destruct (transforms a) as [ia|] eqn:TA'; [|discriminate]. injection TA as <-. injection Q as ->.
        change (Tok o :: ia ++ [Tok c]) with ((Tok o :: ia) ++ [Tok c]) in M. rewrite removelast_last in M. cbn [skipn] in M.
        destruct (common [] ia) as [ns [e|]] eqn:C; [discriminate|]. injection M as <-. apply contents_closed; [exact B|exact EC|].
        apply (common_data a ia TA') with (p := []) (qs := []); [|constructor|exact C]. apply Forall_app in IH'. tauto.
    + cbn [skipn] in M. destruct (common [] its) as [ns [e|]] eqn:C; [discriminate|]. injection M as <-. apply contents_open; [exact B| |].
      * intros a' b' E'. rewrite E in E'. apply app_inj_tail in E' as [_ <-]. intros CB. apply (closes_spec y b TB) in CB. congruence.
      * apply (common_data ts its TT) with (p := []) (qs := []); [exact IH'|constructor|exact C].
  - rewrite transforms_tokens in TK. injection TK as <-. destruct l; try contradiction; cbn in M.
    + unfold read_number in M. destruct (radix_mapping _) as [kk|] eqn:R; [|discriminate]. apply number_method' in R. rewrite tokens_tok in M.
      destruct (value _ ts) eqn:V; injection M as <-; [eapply contents_number|eapply contents_nan]; eassumption.
    + injection M as <-. rewrite tokens_tok. constructor.
    + injection M as <-. rewrite tokens_tok. constructor.
    + injection M as <-. rewrite tokens_tok. constructor.
Qed.
(** Reading a tree of tokens gives exactly the data that are in it. *)
Theorem C96_reads : forall t n, shaped t -> (transform t = Ok (Elem n) <-> contents t n).
Proof. intros t n S. split; [apply reads_complete; exact S|apply reads_sound]. Qed.

(** A datum in LilyPond: the first one after the introducing token. *)
Theorem C96_scheme : forall o ts n r items, datum ts n r -> transforms r = Ok items -> exists items', transforms (TTok o :: ts) = Ok items' /\
  read_scheme items' = Ok (N KLily [o] [n] []) /\ read_argument (skipn 1 items') = Ok (Some n).
Proof.
  intros o ts n r items D T. destruct (proj1 reads_sound ts n r D [] items T) as (its & A & B). cbn. rewrite A. eexists. split; [reflexivity|].
  unfold read_scheme, read_argument. cbn [skipn firstn tokens flat_map app]. rewrite B. cbn. auto.
Qed.
(** Nothing follows the introducing token. *)
Theorem C96_scheme_empty : forall o ts, Forall silent ts -> exists items, transforms (TTok o :: ts) = Ok items /\ read_scheme items = Ok (N KLily [o] [] []) /\ read_argument (skipn 1 items) = Ok None.
Proof.
  intros o ts S. destruct (silent_common ts S []) as (items & T & C). cbn. rewrite T. eexists. split; [reflexivity|]. unfold read_scheme, read_argument. cbn [skipn firstn tokens flat_map app]. rewrite C. auto.
Qed.

(** No token is lost and none is moved, if every quote is followed by a datum. *)
Lemma silent_tokens l : Forall silent l -> Forall (fun t => t = TOther None) l -> flat_map tree_tokens l = [].
Proof. intros _ F. induction F as [|t l -> F IH]; [reflexivity|exact IH]. Qed.
Lemma not_silent_class t k : token_class t k -> ~ silent (TTok t).
Proof. intros C [E|(q & E & Q)]; [discriminate|]. injection E as <-. apply is_quote_spec in Q. rewrite (class_no_quote t k C) in Q. discriminate. Qed.
Lemma not_silent_contents c n : contents c n -> ~ silent c.
Proof. intros C [->|(q & -> & Q)]; inversion C. Qed.
Lemma used_tail t r : quotes_used (t :: r) -> quotes_used r.
Proof.
  intros U. inversion U as [l F|l u s F N U' E]; subst.
  - inversion F; subst. apply used_end. assumption.
  - destruct l as [|x l]; cbn in E; injection E as <- <-; [exact U'|]. inversion F; subst. apply used_more; assumption.
Qed.
Lemma tokens_kept :
  (forall ts n r, datum ts n r -> quotes_used ts -> Forall all_used ts -> quotes_used r /\ Forall all_used r /\ flat_map tree_tokens ts = node_tokens n ++ flat_map tree_tokens r) /\
  (forall ts ns, data ts ns -> quotes_used ts -> Forall all_used ts -> flat_map tree_tokens ts = flat_map node_tokens ns) /\
  (forall t n, contents t n -> all_used t -> tree_tokens t = node_tokens n).
Proof.
  apply reading_m.
  - intros t k r C U A. inversion A; subst. split; [eapply used_tail, U|]. split; [assumption|]. reflexivity.
  - intros c n r C IH U A. inversion A; subst. split; [eapply used_tail, U|]. split; [assumption|]. cbn [flat_map]. rewrite IH by assumption. reflexivity.
  - intros r n r' D IH U A. inversion A; subst. apply IH; [eapply used_tail, U|assumption].
  - intros q r n r' Q D IH U A. inversion A; subst. destruct (IH (used_tail _ _ U) ltac:(assumption)) as (X & Y & Z). split; [exact X|]. split; [exact Y|]. cbn [flat_map tree_tokens app]. rewrite Z. cbn. rewrite !app_nil_r. reflexivity.
  - intros l F U _. cbn [flat_map]. inversion U as [l' F'|l' u s F' N U' E]; subst; [apply silent_tokens; assumption|]. apply Forall_app in F as [_ F]. inversion F; contradiction.
  - intros ts n r ns _ IHd _ IHn U A. destruct (IHd U A) as (X & Y & ->). cbn [flat_map]. rewrite IHn by assumption. reflexivity.
  - reflexivity.
  - intros ts ns _ IH A. inversion A as [| |ts' U F|l' o' ts' c' L E' U F|l' o' ts' L NC' U F|l' ts' N1 N2 N3]; subst; [|destruct L; discriminate|destruct L; discriminate|congruence]. cbn. rewrite app_nil_r. auto.
  - intros l k o ts c ns B E _ IH A. assert (U : quotes_used ts /\ Forall all_used ts).
    { inversion A as [| | |l' o' ts' c' L E' U F|l' o' ts' L NC U F|l' ts' N1 N2 N3]; subst.
      - destruct B as [(Q & _)|(Q & _)]; discriminate Q.
      - match goal with Q : _ = _ ++ [TTok c] |- _ => apply app_inj_tail in Q as [-> _] end. auto.
      - exfalso. apply (NC (TTok o :: ts) (TTok c)); [reflexivity|exists c; auto].
      - destruct B as [(Q & _)|(Q & _)]; contradiction. }
    destruct U as [U F]. cbn. rewrite flat_map_app, IH by assumption. reflexivity.
  - intros l k o ts ns B NC _ IH A. assert (U : quotes_used ts /\ Forall all_used ts).
    { inversion A as [| | |l' o' ts' c' L E' U F|l' o' ts' L NC' U F|l' ts' N1 N2 N3]; subst.
      - destruct B as [(Q & _)|(Q & _)]; discriminate Q.
      - exfalso. apply (NC (TTok o :: ts') (TTok c')); [reflexivity|exists c'; auto].
      - auto.
      - destruct B as [(Q & _)|(Q & _)]; contradiction. }
    destruct U as [U F]. cbn. rewrite app_nil_r, IH by assumption. reflexivity.
  - intros r k ts _ _ _. cbn. rewrite app_nil_r. induction ts as [|t ts IH]; [reflexivity|]. cbn. f_equal. exact IH.
  - intros r k ts _ _ _. cbn. rewrite app_nil_r. induction ts as [|t ts IH]; [reflexivity|]. cbn. f_equal. exact IH.
  - intros ts _. cbn. rewrite app_nil_r. induction ts as [|t ts IH]; [reflexivity|]. cbn. f_equal. exact IH.
  - intros ts _. cbn. rewrite app_nil_r. induction ts as [|t ts IH]; [reflexivity|]. cbn. f_equal. exact IH.
  - intros ts _. cbn. rewrite app_nil_r. induction ts as [|t ts IH]; [reflexivity|]. cbn. f_equal. exact IH.
Qed.
(** Missing for the full claim: a quote that is followed by nothing (C96_lost_finding). *)
Theorem C96_tokens_partial : forall t n, shaped t -> all_used t -> transform t = Ok (Elem n) -> node_tokens n = tree_tokens t.
Proof. intros t n S A T. symmetry. apply tokens_kept; [apply C96_reads; assumption|exact A]. Qed.

(** Everything that is known can be read. *)
Lemma data_exists : forall ts, Forall (fun t => forall l k, t = TCx l k -> exists n, contents t n) ts -> Forall known_item ts -> exists ns, data ts ns.
Proof.
  intros ts F K. assert (G : forall ts, Forall (fun t => forall l k, t = TCx l k -> exists n, contents t n) ts -> Forall known_item ts ->
    forall p qs, pending p qs -> exists ns, data (p ++ ts) ns).
  { clear. induction ts as [|t ts IH]; intros F K p qs P; [exists []; rewrite app_nil_r; apply data_end; eapply pending_silent, P|].
    inversion F as [|? ? HF F']; subst. inversion K as [|? ? HK K']; subst. destruct t as [t|l k|[n|]].
    - destruct HK as [Q|(k & C)].
      + destruct (IH F' K' _ _ (pending_quote_end _ _ _ Q P)) as (ns & D). exists ns. rewrite <- app_assoc in D. exact D.
      + destruct (IH F' K' [] [] pending_nil) as (ns & D). exists (wrap qs (N k [t] [] []) :: ns). eapply data_more; [eapply pending_datum; [exact P|apply datum_token, C]|exact D].
    - destruct (HF l k eq_refl) as (n & C). destruct (IH F' K' [] [] pending_nil) as (ns & D). exists (wrap qs n :: ns). eapply data_more; [eapply pending_datum; [exact P|apply datum_context, C]|exact D].
    - destruct (IH F' K' [] [] pending_nil) as (ns & D). exists (wrap qs n :: ns). eapply data_more; [eapply pending_datum; [exact P|apply datum_context; constructor]|exact D].
    - destruct (IH F' K' _ _ (pending_skip_end _ _ P)) as (ns & D). exists ns. rewrite <- app_assoc in D. exact D. }
  apply (G ts F K [] [] pending_nil).
Qed.
Theorem C96_known : forall l kids, known (TCx l kids) -> exists n, transform (TCx l kids) = Ok (Elem n).
Proof.
  assert (G : forall t, known t -> forall l k, t = TCx l k -> exists n, contents t n).
  { refine (tree_ind' _ _ _ _); [discriminate| |discriminate]. intros l k IH K _ _ _. rewrite Forall_forall in IH.
    inversion K as [| |ts F FI|l' o ts c L E F FI|l' o ts L NC F FI|r kk ts R|l' ts L]; subst.
    - destruct (data_exists k) as (ns & D); [|exact FI|eexists; constructor; exact D]. rewrite Forall_forall in *. intros t I. apply (IH t I). auto.
    - destruct (data_exists ts) as (ns & D); [|exact FI|]. { rewrite Forall_forall in *. intros t I. apply IH; [right; apply in_or_app; auto|auto]. }
      destruct L as [-> | ->]; eexists; [apply (contents_closed value LList KList)|apply (contents_closed value LVector KVector)]; eauto; [left|right]; auto.
    - destruct (data_exists ts) as (ns & D); [|exact FI|]. { rewrite Forall_forall in *. intros t I. apply IH; [right; auto|auto]. }
      destruct L as [-> | ->]; eexists; [apply (contents_open value LList KList)|apply (contents_open value LVector KVector)]; eauto; [left|right]; auto.
    - destruct (value (match r with Some 0 | None => 10 | Some n => n end) ts) eqn:V; eexists; [eapply contents_number|eapply contents_nan]; eassumption.
    - destruct L as [->|[->| ->]]; eexists; constructor. }
  intros l kids K. destruct (G _ K l kids eq_refl) as (n & C). exists n. apply reads_sound. exact C.
Qed.
(** Findings: a quote at the end of a list is lost; a quote before a comment quotes the comment. *)
Theorem C96_lost_finding : forall o q c, quote_token q -> t_text c = txt ")" ->
  transform (TCx LList [TTok o; TTok q; TTok c]) = Ok (Elem (N KList [o] [] [c])).
Proof. intros o q c Q E. apply reads_sound. apply (contents_closed value LList KList o [TTok q] c []); [left; auto|exact E|]. apply data_end. constructor; [right; eauto|constructor]. Qed.
Theorem C96_comment_finding : forall o q x t c k, quote_token q -> token_class t k -> t_text c = txt ")" ->
  transform (TCx LList [TTok o; TTok q; TCx LSingle [TTok x]; TTok t; TTok c]) = Ok (Elem (N KList [o] [N KQuote [q] [N KSingle [x] [] []] []; N k [t] [] []] [c])).
Proof.
  intros o q x t c k Q C E. apply reads_sound. apply (contents_closed value LList KList o [TTok q; TCx LSingle [TTok x]; TTok t] c); [left; auto|exact E|].
  eapply data_more; [apply datum_quote; [exact Q|apply datum_context, (contents_single value [x])]|]. eapply data_more; [apply datum_token, C|apply data_end; constructor].
Qed.
End C96.
Print Assumptions C96_reads. Print Assumptions C96_scheme. Print Assumptions C96_scheme_empty. Print Assumptions C96_tokens_partial. Print Assumptions C96_known. Print Assumptions C96_lost_finding. Print Assumptions C96_comment_finding.

(** '(a . ,"b") *)
Example C96_witness : let tk := fun n (s : string) a => Token n (txt s) a in
  let t := TCx LRoot [TTok (tk 0 "'" AQuote); TCx LList [TTok (tk 1 "(" (AOther 0)); TTok (tk 2 "a" AName); TTok (tk 3 "." ADot); TTok (tk 4 "," AQuote);
    TCx LString [TTok (tk 5 """" (AOther 1)); TTok (tk 6 "b" (AOther 1)); TTok (tk 7 """" (AOther 1))]; TTok (tk 8 ")" (AOther 0))]] in
  shaped t /\ all_used t /\ known t /\
  transform (fun _ _ => true) t = Ok (Elem (N KDocument [] [N KQuote [tk 0 "'" AQuote] [N KList [tk 1 "(" (AOther 0)]
    [N KIdentifier [tk 2 "a" AName] [] []; N KDot [tk 3 "." ADot] [] []; N KQuote [tk 4 "," AQuote] [N KString [tk 5 """" (AOther 1); tk 6 "b" (AOther 1); tk 7 """" (AOther 1)] [] []] []]
    [tk 8 ")" (AOther 0)]] []] [])).
Proof.
  cbv zeta. set (tk := fun n (s : string) a => Token n (txt s) a).
  set (str := [tk 5 """" (AOther 1); tk 6 "b" (AOther 1); tk 7 """" (AOther 1)]).
  change [TTok (tk 5 """" (AOther 1)); TTok (tk 6 "b" (AOther 1)); TTok (tk 7 """" (AOther 1))] with (map TTok str).
  split; [|split; [|split]].
  - apply shaped_root. constructor; [constructor|]. constructor; [|constructor]. apply shaped_block; [auto|discriminate|]. do 3 (constructor; [constructor|]). constructor; [apply shaped_flat; discriminate|repeat constructor].
  - apply all_root.
    + apply (used_more [TTok (tk 0 "'" AQuote)]); [constructor; [right; eexists; split; reflexivity|constructor]|intros [E|(q & E & _)]; discriminate|repeat constructor].
    + constructor; [constructor|]. constructor; [|constructor].
      apply (all_closed LList (tk 1 "(" (AOther 0)) [TTok (tk 2 "a" AName); TTok (tk 3 "." ADot); TTok (tk 4 "," AQuote); TCx LString (map TTok str)] (tk 8 ")" (AOther 0))); [auto|reflexivity| |].
      * apply (used_more []); [constructor|intros [E|(q & E & Q)]; [discriminate|injection E as <-; discriminate]|].
        apply (used_more []); [constructor|intros [E|(q & E & Q)]; [discriminate|injection E as <-; discriminate]|].
        apply (used_more [TTok (tk 4 "," AQuote)]); [constructor; [right; eexists; split; reflexivity|constructor]|intros [E|(q & E & _)]; discriminate|repeat constructor].
      * do 3 (constructor; [constructor|]). constructor; [apply all_flat; discriminate|constructor].
  - apply known_root; [|constructor; [left; reflexivity|repeat constructor]]. constructor; [constructor|]. constructor; [|constructor].
    apply (known_closed LList (tk 1 "(" (AOther 0)) [TTok (tk 2 "a" AName); TTok (tk 3 "." ADot); TTok (tk 4 "," AQuote); TCx LString (map TTok str)] (tk 8 ")" (AOther 0))); [auto|reflexivity| |].
    + do 3 (constructor; [constructor|]). constructor; [apply known_flat; auto|constructor].
    + constructor; [right; exists KIdentifier; constructor; left; reflexivity|]. constructor; [right; exists KDot; constructor; reflexivity|]. constructor; [left; reflexivity|]. repeat constructor.
  - reflexivity.
Qed.

(** ** C97 *)
Section C97.
Variable cs : attrs -> elem -> elem -> str.
Hypothesis cs_between : forall a n m, cs a n m = a_between a.

Lemma value_ind' (P : value -> Prop) : (forall b, P (VBool b)) -> (forall t, P (VNumber t)) -> (forall s, P (VStr s)) -> (forall l, Forall P l -> P (VList l)) ->
  (forall l, Forall P l -> P (VTuple l)) -> (forall e, P (VElement e)) -> P VOther -> forall v, P v.
Proof.
  intros H1 H2 H3 H4 H5 H6 H7. fix IH 1. intros [b|t|s|l|l|e|]; [apply H1|apply H2|apply H3|apply H4|apply H5|apply H6|apply H7]; (induction l as [|c l IHl]; constructor; [apply IH|exact IHl]).
Qed.

(** points without whitespace before them *)
Definition render (ps : list point) : str := flat_map (fun p => match p_text p with Ok t => t ++ p_after p | Err _ => [] end) ps.
Definition quiet (p : point) : Prop := p_before p = [] /\ exists t, p_text p = Ok t /\ t <> [].
Inductive ended : list point -> Prop :=
| ended_last p : p_after p = [] -> ended [p]
| ended_more p ps : ended ps -> ended (p :: ps).
Lemma ended_app a b : ended b -> ended (a ++ b).
Proof. intros E. induction a; [exact E|constructor; assumption]. Qed.
Lemma collapse_space ps : ended ps -> Forall quiet ps -> Forall quiet (collapse_last ps (txt " ")) /\ render (collapse_last ps (txt " ")) = render ps ++ txt " ".
Proof.
  intros E. induction E as [p A|p ps E IH]; intros F; inversion F as [|? ? (B & t & T & NT) F']; subst.
  - unfold collapse_last. rewrite A. change (collapse_whitespace [[]; txt " "]) with (txt " "). split; [repeat constructor; [exact B|exists t; auto]|].
    cbn. rewrite T, A, !app_nil_r. reflexivity.
  - destruct (IH F') as [X Y]. assert (C : collapse_last (p :: ps) (txt " ") = p :: collapse_last ps (txt " ")) by (destruct ps; [inversion E|reflexivity]). rewrite C. split; [constructor; [split; [exact B|exists t; auto]|exact X]|].
    unfold render in *. cbn [flat_map]. rewrite Y, app_assoc. reflexivity.
Qed.
Lemma collapse_nothing ps : ended ps -> collapse_last ps [] = ps.
Proof.
  intros E. induction E as [[sp t m b a] A|p ps E IH].
  - cbn in A. subst a. reflexivity.
  - destruct ps as [|q ps]; [inversion E|]. cbn [collapse_last] in *. rewrite IH. reflexivity.
Qed.

Lemma simple_points : forall e s, simple e s -> exists ps, points cs e = Ok ps /\ Forall quiet ps /\ ended ps /\ render ps = s.
Proof.
  fix IH 3. intros e s S. destruct S as [s NS|m e s NM S|es ss F].
  - eexists. split; [reflexivity|]. cbn. split; [|split].
    + repeat constructor. exists s. auto.
    + constructor. reflexivity.
    + cbn. rewrite !app_nil_r. reflexivity.
  - destruct (IH e s S) as (ps & P & Q & E & R). eexists. cbn. rewrite P. cbn. rewrite collapse_nothing by exact E. split; [reflexivity|]. cbn [opt_list app]. rewrite app_nil_r. split; [|split].
    + constructor; [|exact Q]. split; [reflexivity|]. exists m. auto.
    + constructor. exact E.
    + cbn. rewrite app_nil_r. fold (render ps). rewrite R. reflexivity.
  - assert (K : exists ps,
       (fix children (l : list elem) : res (list point) :=
           match l with
           | [] => Ok []
           | n :: r =>
               let! ps := points cs n in
               match r with
               | [] => Ok ps
               | m :: _ => let! rest := children r in Ok (collapse_last ps (cs (plain_attrs Block (txt "(") (txt ")") (txt " ")) n m) ++ rest)
               end
           end) es = Ok ps /\ Forall quiet ps /\ render ps = spaced ss).
    { induction F as [|n s r ss S F IHF]; [exists []; repeat split; constructor|]. destruct (IH n s S) as (ps & P & Q & E & R). destruct IHF as (rest & PR & QR & RR).
      rewrite P. cbn [bindr]. destruct F as [|m s' r' ss' S' F'].
      - exists ps. auto.
      - rewrite PR. cbn [bindr]. rewrite cs_between. destruct (collapse_space ps E Q) as [CQ CR]. eexists. split; [reflexivity|]. split; [apply Forall_app; split; assumption|].
        unfold render in *. rewrite flat_map_app. cbn [a_between plain_attrs]. fold (render (collapse_last ps (txt " "))). unfold render in CR. cbn [spaced] in *. unfold render. rewrite CR, RR, R, <- app_assoc. reflexivity. }
    destruct K as (ps & P & Q & R). cbn [points]. unfold head_point, tail_point. cbn [a_kind plain_attrs a_head_origin a_tail_origin bindr].
    change (a_after (plain_attrs Block (txt "(") (txt ")") (txt " "))) with (@nil ascii) in *. rewrite P. cbn [bindr]. eexists. split; [reflexivity|].
    cbn [opt_list app]. split; [|split].
    + constructor; [split; [reflexivity|exists (txt "("); split; [reflexivity|discriminate]]|]. apply Forall_app. split; [exact Q|]. repeat constructor. exists (txt ")"). split; [reflexivity|discriminate].
    + constructor. apply ended_app. constructor. reflexivity.
    + unfold render in *. cbn [flat_map p_text p_after]. rewrite flat_map_app, R. cbn [flat_map p_text p_after a_head a_tail plain_attrs].
      assert (H : (if negb (length es =? 0) || truthy (txt ")") then a_after_head (plain_attrs Block (txt "(") (txt ")") (txt " ")) else []) = []) by (destruct (length es =? 0); reflexivity).
      rewrite H, !app_nil_r. reflexivity.
Qed.

Fixpoint pieces (w : str) (fs : list (str * str * str)) : list str := match fs with [] => [] | (_, t, a) :: r => w :: t :: pieces a r end.
Lemma collapse_first w : collapse_whitespace [w; []] = w.
Proof.
  cbn. rewrite ?andb_false_r. reflexivity.
Qed.
Lemma combine_pieces : forall fs res w, Forall (fun f => fst (fst f) = [] /\ snd (fst f) <> []) fs -> fst (combine_loop fs res [w]) = res ++ pieces w fs.
Proof.
  induction fs as [|[[b t] a] fs IH]; intros res w F; [symmetry; apply app_nil_r|]. inversion F as [|? ? [B T] F']; subst. cbn in B, T. subst b.
  cbn [combine_loop]. destruct t as [|c t]; [contradiction|]. cbn [truthy]. cbn [app]. rewrite IH by exact F'. rewrite collapse_first, <- app_assoc. reflexivity.
Qed.
Lemma fragments_quiet : forall ps, Forall quiet ps -> exists fs, fragments ps = Ok fs /\ Forall (fun f => fst (fst f) = [] /\ snd (fst f) <> []) fs /\
  (ended ps -> forall w, concat (pieces w fs) = w ++ render ps).
Proof.
  induction ps as [|p ps IH]; intros F; [exists []; repeat split; [constructor|intros E; inversion E]|]. inversion F as [|? ? (B & t & T & NT) F']; subst.
  destruct (IH F') as (fs & A & C & D). cbn. rewrite T, A. cbn. eexists. split; [reflexivity|]. split; [constructor; [cbn; auto|exact C]|].
  intros E w. cbn [pieces concat]. inversion E as [q AF|q qs E']; subst.
  - cbn in A. injection A as <-. cbn. rewrite ?T, AF, ?app_nil_r. reflexivity.
  - rewrite (D E'). cbn. rewrite ?T, <- ?app_assoc. reflexivity.
Qed.
(** An element that is made of words, quotes and lists writes them with spaces only between the items of a list. *)
Theorem C97_simple : forall e s, simple e s -> write cs e = Ok s.
Proof.
  intros e s S. destruct (simple_points e s S) as (ps & P & Q & E & R). unfold write. rewrite P. cbn [bindr]. destruct (fragments_quiet ps Q) as (fs & F & FF & C). rewrite F. cbn [bindr].
  unfold combine_text. destruct (combine_loop fs [] []) as [r w] eqn:L.
  assert (H : r = pieces [] fs).
  { assert (X : fst (combine_loop fs [] []) = pieces [] fs); [|rewrite L in X; exact X]. destruct fs as [|[[b t] a] fs]; [reflexivity|]. inversion FF as [|? ? [B T] FF']; subst. cbn in B, T. subst b.
    cbn [combine_loop]. destruct t as [|c t]; [contradiction|]. cbn [truthy app]. rewrite combine_pieces by exact FF'. reflexivity. }
  f_equal. rewrite <- R. pose proof (C E []) as CC. cbn [app] in CC. rewrite <- CC, H. destruct fs as [|[[b t] a] fs]; [exfalso; destruct ps as [|p ps]; [inversion E|]; inversion Q as [|? ? (? & ? & T & ?)]; subst; cbn in F; rewrite T in F; cbn [bindr] in F; destruct (fragments ps); discriminate|]. reflexivity.
Qed.

Fixpoint creates (l : list value) : res (list elem) := match l with [] => Ok [] | v :: r => let! e := create v in let! es := creates r in Ok (e :: es) end.
Lemma create_list l : create (VList l) = let! es := creates l in Ok (e_list es).
Proof. reflexivity. Qed.
Lemma create_tuple l : create (VTuple l) = let! es := creates l in Ok (e_list (firstn (length es - 1) es ++ e_dot :: skipn (length es - 1) es)).
Proof. reflexivity. Qed.
Lemma spaced_dot ss s : ss <> [] -> spaced (ss ++ [txt "."; s]) = spaced ss ++ txt " . " ++ s.
Proof.
  induction ss as [|x ss IH]; intros N; [contradiction|]. destruct ss as [|y ss]; [reflexivity|]. cbn [app spaced] in *. rewrite IH by discriminate. rewrite <- !app_assoc. reflexivity.
Qed.
Lemma notation_simple : forall v s, notation v s -> exists e, create v = Ok e /\ simple e s.
Proof.
  fix IH 3. intros v s N. destruct N as [| |t NT|s|e s S|l ss F|l v ss s NE F N].
  - eexists. split; [reflexivity|]. apply simple_word. discriminate.
  - eexists. split; [reflexivity|]. apply simple_word. discriminate.
  - eexists. split; [reflexivity|]. apply simple_word. exact NT.
  - eexists. split; [reflexivity|]. apply simple_word. discriminate.
  - exists e. split; [reflexivity|exact S].
  - assert (K : exists es, creates l = Ok es /\ Forall2 simple es ss). { induction F as [|v s l ss N F IHF]; [exists []; split; [reflexivity|constructor]|]. destruct (IH v s N) as (e & C & S), IHF as (es & CS & SS). exists (e :: es). cbn. rewrite C, CS. split; [reflexivity|constructor; assumption]. }
    destruct K as (es & C & S). rewrite create_list, C. eexists. split; [reflexivity|]. apply simple_list. exact S.
  - assert (K : exists es, creates l = Ok es /\ Forall2 simple es ss). { clear NE. induction F as [|v' s' l ss N' F IHF]; [exists []; split; [reflexivity|constructor]|]. destruct (IH v' s' N') as (e & C & S), IHF as (es & CS & SS). exists (e :: es). cbn. rewrite C, CS. split; [reflexivity|constructor; assumption]. }
    destruct K as (es & C & S). destruct (IH v s N) as (e & CV & SV).
    assert (CA : creates (l ++ [v]) = Ok (es ++ [e])). { clear - C CV. revert es C. induction l as [|x l IHl]; intros es C; [injection C as <-; cbn; rewrite CV; reflexivity|]. cbn in *. destruct (create x); [|discriminate]. cbn [bindr] in *. destruct (creates l) as [es'|]; [|discriminate]. injection C as <-. rewrite (IHl es') by reflexivity. reflexivity. }
    rewrite create_tuple, CA. cbn [bindr]. eexists. split; [reflexivity|]. rewrite app_length. cbn [length]. replace (length es + 1 - 1) with (length es) by lia.
    rewrite firstn_app, firstn_all, skipn_app, skipn_all, Nat.sub_diag. cbn [firstn skipn app]. rewrite app_nil_r.
    assert (NS : ss <> []). { inversion F; subst; [contradiction|discriminate]. }
    replace (txt "(" ++ spaced ss ++ txt " . " ++ s ++ txt ")") with (txt "(" ++ spaced (ss ++ [txt "."; s]) ++ txt ")") by (rewrite spaced_dot by exact NS; rewrite <- !app_assoc; reflexivity).
    apply simple_list. apply Forall2_app; [exact S|]. constructor; [apply simple_word; discriminate|]. constructor; [exact SV|constructor].
Qed.
(** A Python value becomes an element that writes its notation in Scheme. *)
Theorem C97_value : forall v s, notation v s -> exists e, create v = Ok e /\ write cs e = Ok s.
Proof. intros v s N. destruct (notation_simple v s N) as (e & C & S). exists e. split; [exact C|apply C97_simple, S]. Qed.
(** The same for the convenience functions: quotes, pairs. *)
Theorem C97_quote : forall v s, notation v s -> forall mark, mark <> EmptyString -> exists e, quote mark v = Ok e /\ write cs e = Ok (txt mark ++ s) /\ notation (VElement e) (txt mark ++ s).
Proof.
  intros v s N mark NM. destruct (notation_simple v s N) as (e & C & S). unfold quote. rewrite C. cbn [bindr]. eexists. split; [reflexivity|].
  assert (X : simple (E (plain_attrs Head (txt mark) [] []) [e]) (txt mark ++ s)). { apply simple_quote; [destruct mark; [contradiction|discriminate]|exact S]. }
  split; [apply C97_simple, X|constructor; exact X].
Qed.
Theorem C97_pair : forall v1 v2 args s, notation (VTuple (v1 :: v2 :: args)) s -> exists e, pair v1 v2 args = Ok e /\ write cs e = Ok s.
Proof. intros. apply C97_value. assumption. Qed.
End C97.
(** A value cannot be converted if and only if there is a value of another type somewhere in it; then it is a KeyError. *)
Theorem C97_error : forall v, (create v = Err KeyError <-> inside VOther v) /\ (forall x, create v = Err x -> x = KeyError).
Proof.
  assert (L : forall l, Forall (fun v => (create v = Err KeyError <-> inside VOther v) /\ (forall x, create v = Err x -> x = KeyError)) l ->
    (creates l = Err KeyError <-> exists w, In w l /\ inside VOther w) /\ (forall x, creates l = Err x -> x = KeyError)).
  { induction l as [|v l IH]; intros F; [split; [split; [discriminate|intros (w & [] & _)]|discriminate]|]. inversion F as [|? ? [A B] F']; subst. destruct (IH F') as [C D]. cbn.
    destruct (create v) as [e|x]; cbn [bindr].
    - destruct (creates l) as [es|x]; cbn [bindr]; split.
      + split; [discriminate|]. intros (w & [<-|I] & S); [apply A in S; discriminate|]. assert (H : exists w, In w l /\ inside VOther w) by eauto. apply C in H. discriminate.
      + discriminate.
      + split; [intros E; injection E as ->; destruct (proj1 C eq_refl) as (w & I & S); exists w; cbn; auto|]. intros _. rewrite (D x eq_refl). reflexivity.
      + intros y E. injection E as <-. apply D. reflexivity.
    - split; [|intros y E; injection E as <-; apply B; reflexivity]. rewrite (B x eq_refl). split; [|reflexivity]. intros _. exists v. split; [left; reflexivity|]. apply A. f_equal. apply B. reflexivity. }
  refine (value_ind' _ _ _ _ _ _ _ _).
  - intros b. split; [split; [discriminate|intros I; inversion I]|discriminate].
  - intros b. split; [split; [discriminate|intros I; inversion I]|discriminate].
  - intros b. split; [split; [discriminate|intros I; inversion I]|discriminate].
  - intros l F. destruct (L l F) as [A B]. rewrite create_list. destruct (creates l) as [es|x]; cbn [bindr]; split; try discriminate.
    + split; [discriminate|]. intros I. inversion I; subst. assert (H : exists w, In w l /\ inside VOther w) by eauto. apply A in H. discriminate.
    + split; [|intros _; f_equal; apply B; reflexivity]. intros E. injection E as ->. destruct (proj1 A eq_refl) as (w & I & S). eapply inside_list; eassumption.
    + intros y E. injection E as <-. apply B. reflexivity.
  - intros l F. destruct (L l F) as [A B]. rewrite create_tuple. destruct (creates l) as [es|x]; cbn [bindr]; split; try discriminate.
    + split; [discriminate|]. intros I. inversion I; subst. assert (H : exists w, In w l /\ inside VOther w) by eauto. apply A in H. discriminate.
    + split; [|intros _; f_equal; apply B; reflexivity]. intros E. injection E as ->. destruct (proj1 A eq_refl) as (w & I & S). eapply inside_tuple; eassumption.
    + intros y E. injection E as <-. apply B. reflexivity.
  - intros e. split; [split; [discriminate|intros I; inversion I]|discriminate].
  - split; [split; [intros _; constructor|reflexivity]|]. intros x E. injection E as <-. reflexivity.
Qed.
Print Assumptions C97_simple. Print Assumptions C97_value. Print Assumptions C97_quote. Print Assumptions C97_pair. Print Assumptions C97_error.
Example C97_witness : exists e, create (VList [VElement (e_text (txt "if")); VTuple [VStr (txt "a"); VNumber (txt "-2")]; VBool true]) = Ok e /\ write concat_default e = Ok (txt "(if (""a"" . -2) #t)") /\
  notation (VList [VElement (e_text (txt "if")); VTuple [VStr (txt "a"); VNumber (txt "-2")]; VBool true]) (txt "(if (""a"" . -2) #t)").
Proof.
  eexists. split; [reflexivity|]. split; [reflexivity|].
  apply (notation_list [_; _; _] [txt "if"; txt "(""a"" . -2)"; txt "#t"]). repeat constructor; try discriminate.
  apply (notation_pair [VStr (txt "a")] (VNumber (txt "-2")) [txt """a"""] (txt "-2")); [discriminate|repeat constructor|constructor; discriminate].
Qed.
(** Finding: a tuple with one item is converted to something that is not Scheme. *)
Theorem C97_tuple_finding : forall t, t <> [] -> exists e, create (VTuple [VNumber t]) = Ok e /\ write concat_default e = Ok (txt "(. " ++ t ++ txt ")").
Proof.
  intros t N. eexists. split; [reflexivity|]. apply (C97_simple concat_default (fun _ _ _ => eq_refl) _ (txt "(" ++ spaced [txt "."; t] ++ txt ")")).
  apply simple_list. repeat constructor; try discriminate. exact N.
Qed.
(** Every other value has a notation. *)
Theorem C97_total : forall v, (forall w, inside w v -> sound_value w) -> exists s, notation v s.
Proof.
  refine (value_ind' _ _ _ _ _ _ _ _).
  - intros [] _; eexists; constructor.
  - intros t H. specialize (H _ (inside_here _)). exists t. constructor. exact H.
  - intros s _. eexists. constructor.
  - intros l F H. assert (K : exists ss, Forall2 notation l ss).
    { assert (H' : forall v, In v l -> forall w, inside w v -> sound_value w) by (intros v I w W; apply H; eapply inside_list; eassumption). clear H.
      induction l as [|v l IH]; [exists []; constructor|]. inversion F as [|? ? HV F']; subst. destruct (HV (H' v (or_introl eq_refl))) as (s & N). destruct (IH F' (fun x I => H' x (or_intror I))) as (ss & NS). exists (s :: ss). constructor; assumption. }
    destruct K as (ss & N). eexists. constructor. exact N.
  - intros l F H. assert (T := H _ (inside_here _)). cbn in T.
    assert (H' : forall v, In v l -> forall w, inside w v -> sound_value w) by (intros v I w W; apply H; eapply inside_tuple; eassumption). clear H.
    destruct (exists_last (l := l)) as (l' & v & ->); [intros ->; cbn in T; lia|]. rewrite app_length in T. cbn in T. apply Forall_app in F. destruct F as [F FV]. inversion FV as [|? ? HV _]; subst.
    assert (K : exists ss, Forall2 notation l' ss).
    { clear T FV HV. assert (H'' : forall v, In v l' -> forall w, inside w v -> sound_value w) by (intros x I; apply H', in_or_app; auto). clear H'.
      induction l' as [|x l IH]; [exists []; constructor|]. inversion F as [|? ? HX F']; subst. destruct (HX (H'' x (or_introl eq_refl))) as (s & N). destruct (IH F' (fun y I => H'' y (or_intror I))) as (ss & NS). exists (s :: ss). constructor; assumption. }
    destruct K as (ss & N). destruct (HV (H' v ltac:(apply in_or_app; right; left; reflexivity))) as (s & NV). eexists. apply notation_pair; [intros ->; cbn in T; lia|exact N|exact NV].
  - intros e H. destruct (H _ (inside_here _)) as (s & S). exists s. constructor. exact S.
  - intros H. destruct (H _ (inside_here _)).
Qed.
Print Assumptions C97_total.
Print Assumptions C97_tuple_finding.
