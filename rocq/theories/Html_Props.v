(** C99: reading HTML. *)
From Coq Require Import String Ascii List Arith PeanoNat Bool Lia.
From Verif Require Import Base Html_Model Html_Spec.
Import ListNotations.
Local Open Scope string_scope.
Local Open Scope list_scope.
Open Scope nat_scope.

Section C99.
Variable below : bool.
Notation transform := (transform below).
Notation transforms := (transforms below).
Notation tag := (tag below).
Notation options := (options below).

Lemma is_text_spec t s : is_text t s = true <-> reads t s.
Proof. unfold is_text, reads. destruct (list_eq_dec _ _ _); split; auto; discriminate. Qed.
Lemma is_text_no t s : ~ reads t s -> is_text t s = false.
Proof. intros H. destruct (is_text t s) eqn:E; [apply is_text_spec in E; contradiction|reflexivity]. Qed.
Lemma has_slash_spec t : has_slash t = true <-> slash t.
Proof.
  unfold has_slash, slash. rewrite existsb_exists. split.
  - intros (c & I & E). apply Ascii.eqb_eq in E. subst c. exact I.
  - intros I. exists "/"%char. split; [exact I|reflexivity].
Qed.
Lemma has_slash_no t : ~ slash t -> has_slash t = false.
Proof. intros H. destruct (has_slash t) eqn:E; [apply has_slash_spec in E; contradiction|reflexivity]. Qed.
Lemma action_eqb_refl a : action_eqb a a = true.
Proof. destruct a; cbn; auto using Nat.eqb_refl. Qed.
Lemma action_eqb_eq a b : action_eqb a b = true <-> a = b.
Proof. split; [|intros ->; apply action_eqb_refl]. destruct a, b; cbn; try discriminate; try reflexivity. intros E. apply Nat.eqb_eq in E. congruence. Qed.
Lemma action_eqb_no a b : a <> b -> action_eqb a b = false.
Proof. intros N. destruct (action_eqb a b) eqn:E; [apply action_eqb_eq in E; contradiction|reflexivity]. Qed.
Lemma transform_cx l kids : transform (TCx l kids) = let! items := transforms kids in let! o := method below l items in Ok (Item l o).
Proof. cbn. assert (E : forall k, (fix all (l : list tree) : res (list item) := match l with [] => Ok [] | t :: r => let! i := transform t in let! is := all r in Ok (i :: is) end) k = transforms k) by (induction k as [|t k IH]; [reflexivity|cbn; rewrite IH; reflexivity]). rewrite E. reflexivity. Qed.
Lemma transforms_tokens ts : transforms (map TTok ts) = Ok (map Tok ts).
Proof. induction ts as [|t ts IH]; [reflexivity|]. cbn. rewrite IH. reflexivity. Qed.
Lemma transforms_app a b x y : transforms a = Ok x -> transforms b = Ok y -> transforms (a ++ b) = Ok (x ++ y).
Proof.
  revert x. induction a as [|t a IH]; intros x A B; cbn in *; [injection A as <-; exact B|]. destruct (transform t) as [i|]; [|discriminate]. cbn [bindr] in *. destruct (transforms a) as [is|]; [|discriminate]. injection A as <-.
  rewrite (IH is eq_refl B). reflexivity.
Qed.
Lemma filter_tokens ts : filter transformed (map Tok ts) = map Tok ts.
Proof. induction ts as [|t ts IH]; [reflexivity|]. cbn. rewrite IH. reflexivity. Qed.
Lemma piece_spec t n : string_piece t n -> piece t = Some n.
Proof. intros [t' [E|E]|t' [E|E]]; unfold piece; rewrite E; reflexivity. Qed.
Lemma pieces_spec : forall ts ns, Forall2 string_piece ts ns -> pieces (map Tok ts) = Ok ns.
Proof. induction 1 as [|t n ts ns P F IH]; [reflexivity|]. cbn. rewrite (piece_spec _ _ P), IH. reflexivity. Qed.
Lemma pop_last s ts t : pop s (map Tok (ts ++ [t])) = if is_text t s then (map Tok ts, [t]) else (map Tok (ts ++ [t]), []).
Proof. unfold pop. rewrite map_app, rev_app_distr. cbn [map rev app]. rewrite rev_involutive. reflexivity. Qed.
Lemma string_reads t n : string_tree t n -> exists l, transform t = Ok (Item l (ONode n)).
Proof.
  assert (M : forall l k q items, quote_of l k q -> method below l items = let! n := read_string k q (filter transformed items) in Ok (ONode n)) by (intros l k q items [(-> & -> & ->)|(-> & -> & ->)]; reflexivity).
  intros [l k q o ts ns c Q F R|l k q o ts t' ns Q F R|l k q o Q R]; exists l; rewrite transform_cx.
  - rewrite transforms_tokens. cbn [bindr]. rewrite (M _ _ _ _ Q), filter_tokens. change (o :: ts ++ [c]) with ((o :: ts) ++ [c]). unfold read_string. cbn [app map]. change (Tok o :: map Tok (ts ++ [c])) with (map Tok ((o :: ts) ++ [c])). rewrite pop_last, (proj2 (is_text_spec _ _) R). cbn [map skipn]. rewrite (pieces_spec _ _ F). reflexivity.
  - rewrite transforms_tokens. cbn [bindr]. rewrite (M _ _ _ _ Q), filter_tokens. unfold read_string. cbn [app map]. change (Tok o :: map Tok (ts ++ [t'])) with (map Tok ((o :: ts) ++ [t'])). rewrite pop_last, (is_text_no _ _ R). cbn [map skipn app]. rewrite (pieces_spec _ _ F). reflexivity.
  - cbn. rewrite (M _ _ _ _ Q). cbn. unfold pop. cbn. rewrite (is_text_no _ _ R). reflexivity.
Qed.

(** processing instructions *)
Lemma piece_none t : text_only t -> piece t = None.
Proof.
  intros H. destruct (piece t) as [n|] eqn:E; [|reflexivity]. exfalso. unfold piece in E. apply (H n). destruct (t_action t) eqn:A; try discriminate; injection E as <-; constructor; auto.
Qed.
Lemma body_reads ts ns : instruction_body ts ns -> exists items, transforms ts = Ok items /\ Forall (fun i => transformed i = true) items /\ instruction [] items = Ok ns /\
  forall o origin, text_ends ts -> instruction (o :: origin) items = Ok (N KText (o :: origin) [] [] :: ns).
Proof.
  induction 1 as [|t n r ns P H (items & T & F & I & J)|t n r ns S H (items & T & F & I & J)|t ts r ns FT TE H (items & T & F & I & J)].
  - exists []. repeat split; auto.
  - exists (Tok t :: items). cbn [Html_Model.transforms Html_Model.transform bindr]. rewrite T. split; [reflexivity|]. split; [constructor; auto|]. cbn [instruction]. rewrite (piece_spec _ _ P), I. split; reflexivity.
  - destruct (string_reads _ _ S) as (l & E). exists (Item l (ONode n) :: items). cbn [Html_Model.transforms]. rewrite E. cbn [bindr]. rewrite T. split; [reflexivity|]. split; [constructor; auto|]. cbn [instruction]. rewrite I. split; reflexivity.
  - exists (map Tok (t :: ts) ++ items). split; [apply transforms_app; [apply transforms_tokens|exact T]|]. split; [apply Forall_app; split; [apply Forall_forall; intros i II; apply in_map_iff in II; destruct II as (x & <- & _); reflexivity|exact F]|].
    assert (K : forall l o origin, Forall text_only l -> instruction (o :: origin) (map Tok l ++ items) = Ok (N KText (o :: origin ++ l) [] [] :: ns)).
    { induction l as [|x l IHl]; intros o origin FL; [rewrite app_nil_r; apply J; exact TE|]. inversion FL as [|? ? NX FL']; subst. cbn [map app instruction]. rewrite (piece_none _ NX), IHl by exact FL'. cbn [app]. rewrite <- app_assoc. reflexivity. }
    inversion FT as [|? ? NT FT']; subst. split.
    + cbn [map app instruction]. rewrite (piece_none _ NT). cbn [app]. rewrite K by exact FT'. reflexivity.
    + intros o origin E. exfalso. destruct (E t _ eq_refl) as (n & P). exact (NT n P).
Qed.
Lemma filter_all items : Forall (fun i => transformed i = true) items -> filter transformed items = items.
Proof. induction 1 as [|i l E F IH]; [reflexivity|]. cbn. rewrite E, IH. reflexivity. Qed.
Lemma pop_open s items : (forall a c, items = a ++ [Tok c] -> ~ reads c s) -> pop s items = (items, []).
Proof.
  intros H. unfold pop. destruct (rev items) as [|[t| | |] r] eqn:E; try reflexivity. rewrite (is_text_no t s); [reflexivity|]. apply (H (rev r)). rewrite <- (rev_involutive items), E. reflexivity.
Qed.
Lemma last_item a i l : transforms l = Ok (a ++ [Tok i]) -> exists b, l = b ++ [TTok i].
Proof.
  revert a. induction l as [|t l IH]; intros a T; [destruct a; discriminate|]. cbn in T. destruct (transform t) as [x|] eqn:E; [|discriminate]. cbn [bindr] in T. destruct (transforms l) as [is|] eqn:TL; [|discriminate]. injection T as T.
  destruct a as [|y a]; cbn in T; injection T as -> ->.
  - assert (L : l = []) by (destruct l as [|u l]; [reflexivity|cbn in TL; destruct (transform u); [|discriminate]; cbn [bindr] in TL; destruct (transforms l); discriminate]). subst l. exists [].
    destruct t as [t|l k|o tl|us v]; try discriminate; [injection E as ->; reflexivity|]. rewrite transform_cx in E. destruct (transforms k) as [ki|]; [|discriminate]. cbn [bindr] in E. destruct (method below l ki); discriminate.
  - destruct (IH a eq_refl) as (b & ->). exists (t :: b). reflexivity.
Qed.
Theorem C99_instruction : forall t n, instruction_tree t n -> transform t = Ok (Item LInstruction (ONode n)).
Proof.
  intros t n [o ts ns c B R|o ts ns B R]; destruct (body_reads _ _ B) as (items & T & F & I & _); rewrite transform_cx; cbn [Html_Model.transforms Html_Model.transform bindr].
  - rewrite (transforms_app ts [TTok c] items [Tok c] T eq_refl). cbn [bindr method map filter transformed]. rewrite filter_app, (filter_all _ F). cbn [filter transformed]. unfold read_instruction.
    unfold pop. change (Tok o :: items ++ [Tok c]) with ((Tok o :: items) ++ [Tok c]). rewrite rev_app_distr. cbn [rev app]. rewrite (proj2 (is_text_spec c "?>") R). change (rev items ++ [Tok o]) with (rev (Tok o :: items)). rewrite rev_involutive. cbn [skipn]. rewrite I. reflexivity.
  - rewrite T. cbn [bindr method filter transformed]. rewrite (filter_all _ F). unfold read_instruction. rewrite pop_open; [cbn [skipn]; rewrite I; reflexivity|].
    intros a c E. assert (TT : transforms (TTok o :: ts) = Ok (a ++ [Tok c])) by (cbn [Html_Model.transforms Html_Model.transform bindr]; rewrite T; cbn [bindr]; rewrite E; reflexivity).
    destruct (last_item _ _ _ TT) as (b & EB). exact (R b c EB).
Qed.
Theorem C99_comment : forall ts, transform (TCx LComment (map TTok ts)) = Ok (Item LComment (ONode (N KComment ts [] []))) /\ transform (TCx LCData (map TTok ts)) = Ok (Item LCData (ONode (N KCData ts [] []))).
Proof. intros ts. rewrite !transform_cx, transforms_tokens. cbn. assert (E : tokens (map Tok ts) = ts) by (induction ts as [|t l IH]; [reflexivity|cbn; f_equal; exact IH]). rewrite E. split; reflexivity. Qed.

(** attributes *)
Lemma name_step acc t r : name_token t -> options acc (Tok t :: r) = options (N KAttribute [] [N KAttrName [t] [] []] [] :: acc) r.
Proof.
  intros [E|(E & N1 & N2)]; cbn [Html_Model.options]; rewrite E; cbn [action_eqb]; [reflexivity|]. rewrite (is_text_no _ _ N1), (is_text_no _ _ N2). reflexivity.
Qed.
Lemma equal_step acc a t r : equal_token t -> length (kids_of a) = 1 -> options (a :: acc) (Tok t :: r) = options (append a (N KEqualSign [t] [] []) :: acc) r.
Proof. intros (E & NA) L. cbn [Html_Model.options append_last]. rewrite (action_eqb_no _ _ NA), (proj2 (is_text_spec _ _) E), L. reflexivity. Qed.
Lemma value_reads w v ns : value_of w v ns -> exists items, transforms v = Ok items /\ forall acc t e r, options (N KAttribute [] [N KAttrName [t] [] []; N KEqualSign [e] [] []] [] :: acc) (items ++ r) =
  options (N KAttribute [] (N KAttrName [t] [] [] :: N KEqualSign [e] [] [] :: ns) [] :: acc) r.
Proof.
  intros [t n S|t A (P1 & P2)|t u A (P1 & P2) B (Q1 & Q2)|t us u _ A Q].
  - destruct (string_reads _ _ S) as (l & E). cbn. rewrite E. cbn. eexists. split; [reflexivity|]. intros. reflexivity.
  - eexists. split; [reflexivity|]. intros. cbn [app Html_Model.options]. rewrite A. cbn [action_eqb]. rewrite (is_text_no _ _ P1), (is_text_no _ _ P2). reflexivity.
  - eexists. split; [reflexivity|]. intros. cbn [app Html_Model.options]. rewrite A, B. cbn [action_eqb]. rewrite (is_text_no _ _ P1), (is_text_no _ _ P2), (is_text_no _ _ Q1), (is_text_no _ _ Q2). reflexivity.
  - eexists. split; [reflexivity|]. intros. cbn [app Html_Model.options]. rewrite A. cbn [action_eqb matches orb]. rewrite (proj2 (is_text_spec t """") Q), is_text_no; [reflexivity|]. unfold reads in *. rewrite Q. discriminate.
Qed.
Lemma stray_reads n s : 1 <= parts n -> stray n s -> exists items, transforms s = Ok items /\ forall acc r, options (n :: acc) (items ++ r) = options (n :: acc) r.
Proof.
  intros L [m e P (E & NA)|m t P A (P1 & P2)|m t P A (P1 & P2)|m t us u P A Q|m t x P S]; assert (K : length (kids_of m) = parts m) by (destruct m; reflexivity).
  - eexists. split; [reflexivity|]. intros. cbn [app Html_Model.options append_last]. rewrite (action_eqb_no _ _ NA), (proj2 (is_text_spec _ _) E), K. apply Nat.eqb_neq in P. rewrite P. reflexivity.
  - eexists. split; [reflexivity|]. intros. cbn [app Html_Model.options append_last]. rewrite A. cbn [action_eqb]. rewrite (is_text_no _ _ P1), (is_text_no _ _ P2), K, P. reflexivity.
  - eexists. split; [reflexivity|]. intros. cbn [app Html_Model.options append_last]. rewrite A. cbn [action_eqb]. rewrite (is_text_no _ _ P1), (is_text_no _ _ P2), K. apply Nat.ltb_ge in P. cbn [andb]. rewrite P. reflexivity.
  - eexists. split; [reflexivity|]. intros. cbn [app Html_Model.options append_last]. rewrite A. cbn [action_eqb matches orb]. rewrite (proj2 (is_text_spec t """") Q), is_text_no; [cbn [andb]; rewrite K, P; reflexivity|]. unfold reads in *. rewrite Q. discriminate.
  - destruct (string_reads _ _ S) as (l & E). cbn [Html_Model.transforms]. rewrite E. cbn [bindr]. eexists. split; [reflexivity|]. intros. cbn [app Html_Model.options append_last]. rewrite K. apply Nat.eqb_neq in P. rewrite P. reflexivity.
Qed.
Lemma attribute_parts w a n : attribute w a n -> 1 <= parts n.
Proof. induction 1; cbn; lia. Qed.
Lemma attribute_reads w a n : attribute w a n -> exists items, transforms a = Ok items /\ forall acc r, options acc (items ++ r) = options (n :: acc) r.
Proof.
  induction 1 as [a n s W A (is & TA & OA) ST|t NT|t e NT E|t e v ns NT E V].
  - destruct (stray_reads _ _ (attribute_parts _ _ _ A) ST) as (is' & TS & OS). exists (is ++ is'). split; [apply transforms_app; assumption|]. intros. rewrite <- app_assoc, OA. apply OS.
  - eexists. split; [reflexivity|]. intros. cbn [app]. apply name_step. exact NT.
  - eexists. split; [reflexivity|]. intros. cbn [app]. rewrite (name_step _ _ _ NT). rewrite (equal_step _ _ _ _ E) by reflexivity. reflexivity.
  - destruct (value_reads _ _ _ V) as (items & TI & O). cbn. rewrite TI. cbn. eexists. split; [reflexivity|]. intros. cbn [app]. rewrite (name_step _ _ _ NT), (equal_step _ _ _ _ E) by reflexivity. apply O.
Qed.
Lemma attributes_read w k ns tail : attributes w k ns tail -> exists items, transforms k = Ok items /\ forall acc, options acc items = Ok (rev acc ++ ns, tail).
Proof.
  induction 1 as [|t A R|a n r ns tail A H (items & TI & O)].
  - exists []. split; [reflexivity|]. intros. cbn. rewrite app_nil_r. reflexivity.
  - eexists. split; [reflexivity|]. intros. cbn [Html_Model.options]. rewrite A. cbn [action_eqb]. rewrite (is_text_no _ _ R), app_nil_r. reflexivity.
  - destruct (attribute_reads _ _ _ A) as (is & TA & OA). exists (is ++ items). split; [apply transforms_app; assumption|]. intros acc. rewrite OA, O. cbn [rev]. rewrite <- app_assoc. reflexivity.
Qed.
Lemma attributes_object w l k ns tail : attributes w k ns tail -> l = LAttrs \/ l = LOptions -> transform (TCx l k) = Ok (Item l (OAttrs ns tail)).
Proof. intros A L. destruct (attributes_read _ _ _ _ A) as (items & TI & O). rewrite transform_cx, TI. cbn [bindr]. destruct L as [-> | ->]; cbn [method]; rewrite O; reflexivity. Qed.

(** tags *)
Lemma class_spec tail k : tag_class tail k -> single_or_open tail = k.
Proof.
  intros [(-> & t & r & -> & S)|(-> & H)]; cbn [single_or_open]; [rewrite (proj2 (has_slash_spec t) S); reflexivity|]. destruct tail as [|t r]; [reflexivity|]. cbn. rewrite has_slash_no by (eapply H; reflexivity). reflexivity.
Qed.
Definition not_untransformed (items : list item) : Prop := match items with IUntransformed _ :: _ => False | _ => True end.
Definition not_lily (items : list item) : Prop := match items with ILily _ _ :: _ => False | _ => True end.
Lemma first_untransformed r items : no_untransformed r -> transforms r = Ok items -> not_untransformed items.
Proof.
  intros H T. destruct items as [|[t|l o|o tl|u] is]; cbn; auto. destruct r as [|t r]; [discriminate|]. cbn in T. destruct (transform t) as [i|] eqn:E; [|discriminate]. cbn [bindr] in T. destruct (transforms r); [|discriminate]. injection T as -> _.
  destruct t as [t|l k|o tl|us v]; try discriminate; [|injection E as ->; eapply H; reflexivity]. rewrite transform_cx in E. destruct (transforms k) as [ki|]; [|discriminate]. cbn [bindr] in E. destruct (method below l ki); discriminate.
Qed.
Lemma first_lily r items : no_lily r -> transforms r = Ok items -> not_lily items.
Proof.
  intros H T. destruct items as [|[t|l o|o tl|u] is]; cbn; auto. destruct r as [|t r]; [discriminate|]. cbn in T. destruct (transform t) as [i|] eqn:E; [|discriminate]. cbn [bindr] in T. destruct (transforms r); [|discriminate]. injection T as -> _.
  destruct t as [t|l k|o' tl'|us v]; try discriminate; [|injection E as -> ->; eapply H; reflexivity]. rewrite transform_cx in E. destruct (transforms k) as [ki|]; [|discriminate]. cbn [bindr] in E. destruct (method below l ki); discriminate.
Qed.
Lemma no_unknown_tok x y items : not_untransformed items -> unknown_follows below (Tok x :: Tok y :: items) = None.
Proof. intros H. destruct items as [|[| | |] is]; try reflexivity. destruct H. Qed.
Lemma no_unknown_attrs x o items : not_untransformed items -> unknown_follows below (Tok x :: Item LAttrs o :: items) = None.
Proof. intros H. destruct items as [|[| | |] is]; try reflexivity. destruct H. Qed.

(** the opening tag becomes an Element at the end of the nodes *)
Lemma opening_reads w ts n r : opening w ts n r -> forall items, transforms r = Ok items -> exists is, transforms ts = Ok (is ++ items) /\ is <> [] /\
  forall fuel acc, tag (S fuel) acc (is ++ items) = tag fuel (N KElement [] [n] [] :: acc) items.
Proof.
  intros [lt x gt k r' A NS L C NU|lt x kids ns tail k r' A NS AT C NU|lt x kids ns tail k r' A NS AT C NL|lt x kids ns c objs tail r' A NS AT RC] items T.
  - exists [Tok lt; Tok x; Tok gt]. cbn [Html_Model.transforms Html_Model.transform bindr]. rewrite T. cbn [bindr]. split; [reflexivity|]. split; [discriminate|]. intros fuel acc. cbn [app Html_Model.tag]. rewrite A. cbn [action_eqb orb].
    rewrite no_unknown_tok by (eapply first_untransformed; eassumption). rewrite (has_slash_no _ NS), L, (class_spec _ _ C). reflexivity.
  - pose proof (attributes_object _ LAttrs _ _ _ AT (or_introl eq_refl)) as O. exists [Tok lt; Tok x; Item LAttrs (OAttrs ns tail)]. cbn [Html_Model.transforms]. rewrite O. cbn [Html_Model.transform bindr]. rewrite T. split; [reflexivity|]. split; [discriminate|].
    intros fuel acc. cbn [app Html_Model.tag]. rewrite A. cbn [action_eqb orb]. rewrite no_unknown_attrs by (eapply first_untransformed; eassumption). rewrite (has_slash_no _ NS), (class_spec _ _ C). reflexivity.
  - pose proof (attributes_object _ LOptions _ _ _ AT (or_intror eq_refl)) as O. exists [Tok lt; Tok x; Item LOptions (OAttrs ns tail)]. cbn [Html_Model.transforms]. rewrite O. cbn [Html_Model.transform bindr]. rewrite T. split; [reflexivity|]. split; [discriminate|].
    intros fuel acc. cbn [app Html_Model.tag]. rewrite A. cbn [action_eqb orb unknown_follows]. rewrite (has_slash_no _ NS), (class_spec _ _ C).
    destruct tail as [|c tl]; [reflexivity|]. destruct (is_text c ":") eqn:E; [|reflexivity]. apply is_text_spec in E. pose proof (first_lily _ _ (NL _ _ eq_refl E) T) as F. destruct items as [|[| | |] is]; try reflexivity. destruct F.
  - pose proof (attributes_object _ LOptions _ _ _ AT (or_intror eq_refl)) as O. exists [Tok lt; Tok x; Item LOptions (OAttrs ns [c]); ILily objs tail]. cbn [Html_Model.transforms]. rewrite O. cbn [Html_Model.transform bindr]. rewrite T. split; [reflexivity|]. split; [discriminate|].
    intros fuel acc. cbn [app Html_Model.tag]. rewrite A. cbn [action_eqb orb unknown_follows]. rewrite (has_slash_no _ NS), (proj2 (is_text_spec c ":") RC). reflexivity.
Qed.
Lemma dropped_reads t : dropped t -> exists i, transform t = Ok i /\ forall fuel acc r, tag (S fuel) acc (i :: r) = tag fuel acc r.
Proof.
  intros [ts|ts|t' n I|t' n S|us u|t' NI].
  - eexists. rewrite transform_cx, transforms_tokens. split; reflexivity.
  - eexists. rewrite transform_cx, transforms_tokens. split; reflexivity.
  - eexists. rewrite (C99_instruction _ _ I). split; reflexivity.
  - destruct (string_reads _ _ S) as (l & E). exists (Item l (ONode n)). split; [exact E|]. intros. destruct l; reflexivity.
  - eexists. split; reflexivity.
  - exists (Tok t'). split; [reflexivity|]. intros. cbn [Html_Model.tag]. cbn in NI. rewrite !action_eqb_no by (intros E; apply NI; rewrite E; auto). reflexivity.
Qed.
Theorem contents_read : forall w ts ns, contents w ts ns -> exists items, transforms ts = Ok items /\ forall fuel acc, length items < fuel -> tag fuel acc items = Ok (rev acc ++ ns).
Proof.
  intros w. induction 1 as [|t r ns A H (items & T & G)|t r ns A H (items & T & G)|ts n kids r inner ns O HK (ki & TK & GK) H (items & T & G)|ts n objs tail r ns _ O H (items & T & G)|ts n r ns O H (items & T & G)
    |lt x gt r ns A S NU H (items & T & G)|ts n r ns _ U H (items & T & G)|t r ns _ D H (items & T & G)|t r _ A [->|(x & ->)]].
  - exists []. split; [reflexivity|]. intros [|fuel] acc L; [inversion L|]. cbn. rewrite app_nil_r. reflexivity.
  - exists (Tok t :: items). cbn [Html_Model.transforms Html_Model.transform bindr]. rewrite T. cbn [bindr]. split; [reflexivity|]. intros [|fuel] acc L; [inversion L|]. cbn [Html_Model.tag].
    assert (E : action_eqb (t_action t) AText || action_eqb (t_action t) AWhitespace = true) by (destruct A as [-> | ->]; reflexivity). rewrite E, G by (cbn in L; lia). cbn [rev]. rewrite <- app_assoc. reflexivity.
  - exists (Tok t :: items). cbn [Html_Model.transforms Html_Model.transform bindr]. rewrite T. cbn [bindr]. split; [reflexivity|]. intros [|fuel] acc L; [inversion L|]. cbn [Html_Model.tag]. rewrite A. cbn [action_eqb orb]. rewrite G by (cbn in L; lia). cbn [rev]. rewrite <- app_assoc. reflexivity.
  - assert (TT : transforms (TCx LTag kids :: r) = Ok (Item LTag (ONodes inner) :: items)). { cbn [Html_Model.transforms]. rewrite transform_cx, TK. cbn [bindr method]. rewrite GK by lia. cbn. rewrite T. reflexivity. }
    destruct (opening_reads _ _ _ _ O _ TT) as (is & TI & NE & GI). eexists. split; [exact TI|]. intros [|[|fuel]] acc L; [inversion L|destruct is; [contradiction|cbn in L; lia]|].
    rewrite GI. cbn [Html_Model.tag extend app]. rewrite G by (destruct is; [contradiction|rewrite app_length in L; cbn in L; lia]). cbn [rev]. rewrite <- app_assoc. reflexivity.
  - assert (TT : transforms (TLily objs tail :: r) = Ok (ILily objs tail :: items)) by (cbn; rewrite T; reflexivity).
    destruct (opening_reads _ _ _ _ O _ TT) as (is & TI & NE & GI). eexists. split; [exact TI|]. intros [|[|fuel]] acc L; [inversion L|destruct is; [contradiction|cbn in L; lia]|].
    rewrite GI. cbn [Html_Model.tag extend app]. rewrite G by (destruct is; [contradiction|rewrite app_length in L; cbn in L; lia]). cbn [rev]. rewrite <- app_assoc. reflexivity.
  - destruct (opening_reads _ _ _ _ O _ T) as (is & TI & NE & GI). eexists. split; [exact TI|]. intros [|fuel] acc L; [inversion L|]. rewrite GI. rewrite G by (destruct is; [contradiction|rewrite app_length in L; cbn in L; lia]). cbn [rev]. rewrite <- app_assoc. reflexivity.
  - exists (Tok lt :: Tok x :: Tok gt :: items). cbn [Html_Model.transforms Html_Model.transform bindr]. rewrite T. cbn [bindr]. split; [reflexivity|]. intros [|fuel] acc L; [inversion L|]. cbn [Html_Model.tag]. rewrite A. cbn [action_eqb orb]. rewrite no_unknown_tok by (eapply first_untransformed; eassumption).
    rewrite (proj2 (has_slash_spec lt) S), G by (cbn in L; lia). cbn [rev]. rewrite <- app_assoc. reflexivity.
  - destruct U as [t x kids ns' tail us u r A B AT|t x y us u r A B C|t x y us u r A B C].
    + pose proof (attributes_object _ LAttrs _ _ _ AT (or_introl eq_refl)) as O. eexists. cbn [Html_Model.transforms]. rewrite O. cbn [Html_Model.transform bindr]. rewrite T. split; [reflexivity|]. intros [|fuel] acc L; [inversion L|].
      cbn [Html_Model.tag]. rewrite A. cbn [action_eqb orb unknown_follows]. rewrite B. cbn [matches action_eqb orb skipn]. rewrite G by (cbn in L; lia). cbn [rev]. rewrite <- app_assoc. reflexivity.
    + eexists. cbn [Html_Model.transforms Html_Model.transform bindr]. rewrite T. split; [reflexivity|]. intros [|fuel] acc L; [inversion L|].
      cbn [Html_Model.tag]. rewrite A. cbn [action_eqb orb unknown_follows]. rewrite B, C. cbn [matches action_eqb orb andb skipn]. rewrite G by (cbn in L; lia). cbn [rev]. rewrite <- app_assoc. reflexivity.
    + eexists. cbn [Html_Model.transforms Html_Model.transform bindr]. rewrite T. split; [reflexivity|]. intros [|fuel] acc L; [inversion L|].
      cbn [Html_Model.tag]. rewrite A. cbn [action_eqb orb unknown_follows]. rewrite B, C. unfold matches at 1 2 3 4. cbn [action_eqb orb andb]. rewrite ?andb_false_r, ?orb_true_r. cbn [orb skipn]. rewrite G by (cbn in L; lia). cbn [rev]. rewrite <- app_assoc. reflexivity.
  - destruct (dropped_reads _ D) as (i & TI & GI). exists (i :: items). cbn. rewrite TI, T. split; [reflexivity|]. intros [|fuel] acc L; [inversion L|]. rewrite GI, G by (cbn in L; lia). reflexivity.
  - eexists. split; [reflexivity|]. intros [|fuel] acc L; [inversion L|]. cbn [Html_Model.tag]. rewrite A. cbn. rewrite app_nil_r. reflexivity.
  - eexists. split; [reflexivity|]. intros [|fuel] acc L; [inversion L|]. cbn [Html_Model.tag]. rewrite A. cbn. rewrite app_nil_r. reflexivity.
Qed.
(** The document has the elements that the tokens mean. *)
Theorem C99_reads : forall w ts ns, contents w ts ns -> root below ts = Ok (N KDocument [] ns []).
Proof. intros w ts ns C. destruct (contents_read _ _ _ C) as (items & T & G). unfold root. rewrite T. cbn [bindr]. rewrite G by lia. reflexivity. Qed.
(** Finding: a comment, CDATA section or processing instruction is not in the document, although an element is made for it. *)
Theorem C99_dropped_finding : forall w t n r ns, (exists ts, t = TCx LComment (map TTok ts) \/ t = TCx LCData (map TTok ts)) \/ instruction_tree t n -> contents w r ns ->
  root below (t :: r) = root below r.
Proof.
  intros w t n r ns D C. destruct (contents_read _ _ _ C) as (items & T & G).
  assert (DT : dropped t) by (destruct D as [(ts & [-> | ->])|I]; [constructor|constructor|eapply dropped_instruction; exact I]).
  destruct (dropped_reads _ DT) as (i & TI & GI). unfold root. cbn [Html_Model.transforms]. rewrite TI, T. cbn [bindr length]. rewrite GI. reflexivity.
Qed.
(** Finding: a string that is only the opening quote (at the end of the text) gets that token as its end, too. *)
Theorem C99_string_finding : forall l k q o, quote_of l k q -> reads o q -> transform (TCx l [TTok o]) = Ok (Item l (ONode (N k [o] [] [o]))).
Proof.
  intros l k q o Q R. rewrite transform_cx. destruct Q as [(-> & -> & ->)|(-> & -> & ->)]; cbn [Html_Model.transforms Html_Model.transform bindr method filter transformed]; unfold read_string, pop; cbn [rev app]; rewrite (proj2 (is_text_spec _ _) R); reflexivity.
Qed.
End C99.

(** ** The tokens *)
Section Tokens.
Definition rel {A} (w : bool) (a b : list A) : Prop := (w = true -> a = b) /\ sublist a b.
Lemma sub_refl {A} (a : list A) : sublist a a.
Proof. induction a; constructor; assumption. Qed.
Lemma sub_app {A} (a b c d : list A) : sublist a b -> sublist c d -> sublist (a ++ c) (b ++ d).
Proof. intros H K. induction H; cbn; [exact K| |]; constructor; assumption. Qed.
Lemma sub_nothing {A} (a : list A) : sublist [] a.
Proof. induction a; constructor; assumption. Qed.
Lemma rel_refl {A} w (a : list A) : rel w a a.
Proof. split; [reflexivity|apply sub_refl]. Qed.
Lemma rel_app {A} w (a b c d : list A) : rel w a b -> rel w c d -> rel w (a ++ c) (b ++ d).
Proof. intros [E S] [F T]. split; [intros W; rewrite (E W), (F W); reflexivity|apply sub_app; assumption]. Qed.
Lemma flat_tokens ts : flat_map tree_tokens (map TTok ts) = ts.
Proof. induction ts as [|t ts IH]; [reflexivity|]. cbn. f_equal. exact IH. Qed.
Lemma pieces_tokens ts ns : Forall2 string_piece ts ns -> flat_map node_tokens ns = ts.
Proof. induction 1 as [|t n ts ns P F IH]; [reflexivity|]. cbn [flat_map]. rewrite IH. destruct P; reflexivity. Qed.
Lemma string_tokens t n : string_tree t n -> node_tokens n = tree_tokens t.
Proof.
  intros [l k q o ts ns c Q F R|l k q o ts t' ns Q F R|l k q o Q R]; cbn [node_tokens tree_tokens]; [rewrite flat_tokens, (pieces_tokens _ _ F)|rewrite flat_tokens, (pieces_tokens _ _ F), app_nil_r|]; reflexivity.
Qed.
Variable w : bool.
Lemma value_tokens v ns : value_of w v ns -> rel w (flat_map node_tokens ns) (flat_map tree_tokens v).
Proof.
  intros [t n S|t A P|t u A P B Q|t us u U A Q]; cbn [flat_map]; rewrite ?app_nil_r; try apply rel_refl.
  - rewrite (string_tokens _ _ S). apply rel_refl.
  - cbn. split; [intros W; rewrite (U W); reflexivity|]. apply sub_keep. clear U. induction us; [apply sub_refl|apply sub_skip; assumption].
Qed.
Lemma attribute_tokens a n : attribute w a n -> rel w (node_tokens n) (flat_map tree_tokens a).
Proof.
  induction 1 as [a n s W A IH ST|t NT|t e NT E|t e v ns NT E V]; try apply rel_refl.
  { split; [congruence|]. destruct IH as [_ IH]. rewrite flat_map_app, <- (app_nil_r (node_tokens n)). apply sub_app; [exact IH|apply sub_nothing]. }
  cbn [node_tokens flat_map tree_tokens app]. rewrite !app_nil_r.
  apply (rel_app w [t; e] [t; e]); [apply rel_refl|apply value_tokens; exact V].
Qed.
Lemma attributes_tokens k ns tail : attributes w k ns tail -> rel w (flat_map node_tokens ns ++ tail) (flat_map tree_tokens k).
Proof.
  induction 1 as [|t A R|a n r ns tail A H IH]; try apply rel_refl. cbn [flat_map]. rewrite flat_map_app, <- app_assoc. apply rel_app; [apply attribute_tokens; exact A|exact IH].
Qed.
Lemma opening_tokens ts n r : opening w ts n r -> exists a, ts = a ++ r /\ rel w (node_tokens n) (flat_map tree_tokens a).
Proof.
  intros [lt x gt k r' A NS L C NU|lt x kids ns tail k r' A NS AT C NU|lt x kids ns tail k r' A NS AT C NL|lt x kids ns c objs tail r' A NS AT RC].
  - exists [TTok lt; TTok x; TTok gt]. split; [reflexivity|apply rel_refl].
  - exists [TTok lt; TTok x; TCx LAttrs kids]. split; [reflexivity|]. cbn [node_tokens flat_map tree_tokens app]. rewrite !app_nil_r. apply (rel_app w [lt; x] [lt; x]); [apply rel_refl|apply attributes_tokens; exact AT].
  - exists [TTok lt; TTok x; TCx LOptions kids]. split; [reflexivity|]. cbn [node_tokens flat_map tree_tokens app]. rewrite !app_nil_r. apply (rel_app w [lt; x] [lt; x]); [apply rel_refl|apply attributes_tokens; exact AT].
  - exists [TTok lt; TTok x; TCx LOptions kids; TLily objs tail]. split; [reflexivity|]. cbn [node_tokens flat_map tree_tokens app]. rewrite !app_nil_r, flat_map_app. cbn [flat_map node_tokens app]. rewrite <- !app_assoc. cbn [app].
    apply (rel_app w [lt; x] [lt; x]); [apply rel_refl|]. change (c :: flat_map node_tokens objs ++ tail) with ([c] ++ (flat_map node_tokens objs ++ tail)). rewrite app_assoc. apply rel_app; [apply attributes_tokens; exact AT|apply rel_refl].
Qed.
Lemma contents_tokens ts ns : contents w ts ns -> rel w (flat_map node_tokens ns) (flat_map tree_tokens ts).
Proof.
  induction 1 as [|t r ns A H IH|t r ns A H IH|ts n kids r inner ns O HK IHK H IH|ts n objs tail r ns W O H IH|ts n r ns O H IH|lt x gt r ns A S NU H IH|ts n r ns W U H IH|t r ns W D H IH|t r W A R].
  - apply rel_refl.
  - apply (rel_app w [t] [t]); [apply rel_refl|exact IH].
  - apply (rel_app w [t] [t]); [apply rel_refl|exact IH].
  - destruct (opening_tokens _ _ _ O) as (a & -> & R). rewrite flat_map_app. cbn [flat_map node_tokens app tree_tokens]. rewrite app_nil_r, <- app_assoc. apply rel_app; [exact R|]. apply rel_app; assumption.
  - destruct (opening_tokens _ _ _ O) as (a & -> & R). rewrite flat_map_app. cbn [flat_map node_tokens app tree_tokens]. rewrite app_nil_r, <- app_assoc. apply rel_app; [exact R|]. apply rel_app; [|exact IH].
    split; [intros E; rewrite (W E), app_nil_r; reflexivity|]. rewrite <- (app_nil_r (flat_map node_tokens objs)) at 1. apply sub_app; [apply sub_refl|apply sub_nothing].
  - destruct (opening_tokens _ _ _ O) as (a & -> & R). rewrite flat_map_app. cbn [flat_map node_tokens app tree_tokens]. rewrite !app_nil_r. apply rel_app; [exact R|exact IH].
  - apply (rel_app w [lt; x; gt] [lt; x; gt]); [apply rel_refl|exact IH].
  - split; [congruence|]. destruct IH as [_ IH]. cbn [flat_map].
    destruct U as [t x kids ns' tail us u r A B AT|t x y us u r A B C|t x y us u r A B C]; cbn [flat_map node_tokens app tree_tokens]; apply sub_keep.
    + apply sub_skip. apply (sub_app [] _ (u :: _)); [apply sub_nothing|]. rewrite <- app_assoc. apply (sub_app [] _ (u :: _)); [apply sub_nothing|]. apply sub_keep. exact IH.
    + apply sub_skip, sub_skip. rewrite <- app_assoc. apply (sub_app [] _ (u :: _)); [apply sub_nothing|]. apply sub_keep. exact IH.
    + apply sub_skip, sub_skip. rewrite <- app_assoc. apply (sub_app [] _ (u :: _)); [apply sub_nothing|]. apply sub_keep. exact IH.
  - split; [congruence|]. destruct IH as [_ IH]. cbn [flat_map]. apply (sub_app [] _ (flat_map node_tokens ns)); [apply sub_nothing|exact IH].
  - split; [congruence|apply sub_nothing].
Qed.
End Tokens.
(** No token is duplicated or moved; and none is lost if nothing has to be left out. *)
Theorem C99_tokens : forall w ts ns, contents w ts ns -> sublist (flat_map node_tokens ns) (flat_map tree_tokens ts).
Proof. intros w ts ns C. apply (contents_tokens w _ _ C). Qed.
(** Missing for the full claim: the tokens that are left out (C99_dropped_finding). *)
Theorem C99_complete_partial : forall ts ns, contents true ts ns -> flat_map node_tokens ns = flat_map tree_tokens ts.
Proof. intros ts ns C. apply (contents_tokens true _ _ C). reflexivity. Qed.
Print Assumptions C99_reads. Print Assumptions C99_instruction. Print Assumptions C99_comment. Print Assumptions C99_dropped_finding. Print Assumptions C99_string_finding. Print Assumptions C99_tokens. Print Assumptions C99_complete_partial.

(** <p>a<lilypond x=1mm: MUSIC/></p> *)
Example C99_witness : let tk := fun n (s : string) a => Token n (txt s) a true in
  let music := N (KOther 0) [tk 9 "c" (AOther 0)] [] [] in
  let close := [TTok (tk 11 "</" ADelimiter); TTok (tk 12 "p" ATag); TTok (tk 13 ">" ADelimiter)] in
  let inner := TTok (tk 3 "a" AText) :: TTok (tk 4 "<" ADelimiter) :: TTok (tk 5 "lilypond" ATag) ::
    TCx LOptions [TTok (tk 6 "x" AAttribute); TTok (tk 7 "=" (AOther 0)); TTok (tk 8 "1" ANumber); TTok (tk 80 "mm" AUnit); TTok (tk 81 ":" ADelimiter)] ::
    TLily [music] [tk 10 "/>" ADelimiter] :: close in
  let ts := [TTok (tk 0 "<" ADelimiter); TTok (tk 1 "p" ATag); TTok (tk 2 ">" ADelimiter); TCx LTag inner] in
  contents true ts [N KElement [] [N KOpenTag [tk 0 "<" ADelimiter] [N KTagName [tk 1 "p" ATag] [] []] [tk 2 ">" ADelimiter];
    N KText [tk 3 "a" AText] [] [];
    N KElement [] [N KSingleTag [tk 4 "<" ADelimiter] (N KTagName [tk 5 "lilypond" ATag] [] [] ::
      [N KAttribute [] [N KAttrName [tk 6 "x" AAttribute] [] []; N KEqualSign [tk 7 "=" (AOther 0)] [] []; N KNumber [tk 8 "1" ANumber] [] []; N KUnit [tk 80 "mm" AUnit] [] []] []] ++
      N KColon [tk 81 ":" ADelimiter] [] [] :: [music]) [tk 10 "/>" ADelimiter]] [];
    N KCloseTag [tk 11 "</" ADelimiter] [N KTagName [tk 12 "p" ATag] [] []] [tk 13 ">" ADelimiter]] []].
Proof.
  cbv zeta. eapply (contents_element true _ _ _ []).
  - apply opening_plain; [reflexivity|cbn; intuition discriminate|reflexivity| |discriminate]. right. split; [reflexivity|]. intros t r E. injection E as <- <-. cbn. intuition discriminate.
  - apply contents_text; [left; reflexivity|]. eapply contents_single.
    + eapply opening_short; [reflexivity|cbn; intuition discriminate| |reflexivity].
      eapply (attributes_more true [_; _; _; _] _ [_]); [|apply attributes_end; [reflexivity|discriminate]].
      eapply attribute_value; [left; reflexivity|split; [reflexivity|discriminate]|]. apply value_unit; repeat split; discriminate.
    + apply contents_close; [reflexivity|cbn; tauto|discriminate|constructor].
  - constructor.
Qed.
