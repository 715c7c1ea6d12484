(** C98: HTML made with the constructor object. *)
From Coq Require Import String Ascii List Arith PeanoNat Bool Lia.
From Verif Require Import Base Element_Model Heads_Spec Htm_Model Htm_Spec.
From Verif Require Heads_Model Heads_Props.
Import ListNotations.
Local Open Scope string_scope.
Local Open Scope list_scope.
Open Scope nat_scope.

(** ** Points without whitespace, or with single spaces *)
Section Flat.
Variable cs : attrs -> elem -> elem -> str.
Hypothesis cs_between : forall a n m, cs a n m = a_between a.
Inductive out : list point -> str -> Prop :=
| out_nil : out [] []
| out_empty p ps s : p_before p = [] -> p_text p = Ok [] -> p_after p = [] -> out ps s -> out (p :: ps) s
| out_text p ps t s : p_before p = [] -> p_text p = Ok t -> t <> [] -> p_after p = [] -> out ps s -> out (p :: ps) (t ++ s)
| out_space p ps t s : p_before p = [] -> p_text p = Ok t -> t <> [] -> p_after p = txt " " -> out ps s -> s <> [] -> out (p :: ps) (t ++ txt " " ++ s).
Inductive ends : list point -> Prop :=
| ends_last p t : p_text p = Ok t -> t <> [] -> ends [p]
| ends_more p ps : ends ps -> ends (p :: ps).
Lemma out_app a s : out a s -> forall b t, out b t -> out (a ++ b) (s ++ t).
Proof.
  intros A. induction A as [|p ps s B T F A IH|p ps x s B T NT F A IH|p ps x s B T NT F A IH NS]; intros b t O; [exact O| | |]; cbn [app].
  - apply out_empty; auto.
  - rewrite <- app_assoc. apply out_text; auto.
  - rewrite <- !app_assoc. apply out_space; auto. intros E. apply NS. destruct s; [reflexivity|discriminate].
Qed.
Lemma ends_app a b : ends b -> ends (a ++ b).
Proof. intros E. induction a; [exact E|constructor; assumption]. Qed.
Lemma collapse_first w : collapse_whitespace [w; []] = w.
Proof. cbn. rewrite ?andb_false_r. reflexivity. Qed.
Lemma collapse_nothing : forall ps, collapse_last ps [] = ps.
Proof.
  induction ps as [|[sp t m b a] ps IH]; [reflexivity|]. destruct ps as [|q ps]; [cbn [collapse_last p_span p_text p_modified p_before p_after]; rewrite collapse_first; reflexivity|]. change (collapse_last ({| p_span := sp; p_text := t; p_modified := m; p_before := b; p_after := a |} :: q :: ps) []) with ({| p_span := sp; p_text := t; p_modified := m; p_before := b; p_after := a |} :: collapse_last (q :: ps) []).
  rewrite IH. reflexivity.
Qed.
Lemma collapse_space ps s : out ps s -> ends ps -> forall r t, out r t -> t <> [] -> out (collapse_last ps (txt " ") ++ r) (s ++ txt " " ++ t).
Proof.
  intros O. induction O as [|p ps s B T F O IH|p ps x s B T NT F O IH|p ps x s B T NT F O IH NS]; intros E r t R NR; [inversion E| | |].
  - inversion E as [? ? T' N'|? ? E']; subst; [congruence|]. destruct ps as [|q ps]; [inversion E'|]. apply out_empty; auto.
  - destruct ps as [|q ps].
    + inversion O; subst. cbn [collapse_last app]. rewrite app_nil_r. apply out_space; auto. cbn [p_after]. rewrite F. reflexivity.
    + rewrite <- app_assoc. apply out_text; auto. apply IH; auto. inversion E; assumption.
  - destruct ps as [|q ps]; [inversion O; subst; contradiction|]. rewrite <- !app_assoc. apply out_space; auto; [apply IH; auto; inversion E; assumption|]. intros Z. apply app_eq_nil in Z. tauto.
Qed.
Lemma ends_out ps s : out ps s -> ends ps -> s <> [].
Proof.
  intros O. induction O as [|p ps s B T F O IH|p ps x s B T NT F O IH|p ps x s B T NT F O IH NS]; intros E; [inversion E| | |].
  - inversion E; subst; [congruence|auto].
  - intros Z. apply app_eq_nil in Z. tauto.
  - intros Z. apply app_eq_nil in Z. tauto.
Qed.
Definition has (e : elem) (s : str) : Prop := exists ps, points cs e = Ok ps /\ out ps s.
Definition solid (e : elem) (s : str) : Prop := exists ps, points cs e = Ok ps /\ out ps s /\ ends ps.
Lemma solid_has e s : solid e s -> has e s.
Proof. intros (ps & P & O & _). exists ps. auto. Qed.
Lemma solid_ne e s : solid e s -> s <> [].
Proof. intros (ps & P & O & E). eapply ends_out; eassumption. Qed.

Lemma has_leaf s : has (E (new_attrs Head s [] []) []) s.
Proof.
  eexists. split; [reflexivity|]. cbn. destruct s as [|c s]; [apply out_empty; auto; constructor|].
  rewrite <- (app_nil_r (c :: s)) at 2. apply out_text; auto; [discriminate|constructor].
Qed.
Lemma solid_leaf s : s <> [] -> solid (E (new_attrs Head s [] []) []) s.
Proof.
  intros N. eexists. split; [reflexivity|]. cbn. split; [|econstructor; [reflexivity|exact N]]. rewrite <- (app_nil_r s) at 2. apply out_text; auto. constructor.
Qed.
(** the loop over the children *)
Definition kids_points (a : attrs) : list elem -> res (list point) :=
  fix children (l : list elem) : res (list point) :=
    match l with
    | [] => Ok []
    | n :: r =>
        let! ps := points cs n in
        match r with
        | [] => Ok (match tail_point a with None => collapse_last ps (a_after a) | Some _ => ps end)
        | m :: _ => let! rest := children r in Ok (collapse_last ps (cs a n m) ++ rest)
        end
    end.
Lemma points_eq a kids : points cs (E a kids) = let! hp := head_point a kids in let! body := kids_points a kids in Ok (opt_list hp ++ body ++ opt_list (tail_point a)).
Proof. reflexivity. Qed.
Lemma kids_plain a : a_after a = [] -> a_between a = [] -> forall es ss, Forall2 has es ss -> exists ps, kids_points a es = Ok ps /\ out ps (concat ss).
Proof.
  intros A B. induction es as [|e es IH]; intros ss F; inversion F as [|? s ? ss' H F']; subst; [exists []; split; [reflexivity|constructor]|].
  destruct H as (ps & P & O). destruct (IH _ F') as (qs & Q & OQ). cbn [kids_points]. rewrite P. cbn [bindr]. destruct es as [|m es].
  - inversion F'; subst. exists ps. rewrite A, collapse_nothing. cbn [concat]. rewrite app_nil_r. split; [destruct (tail_point a); reflexivity|exact O].
  - fold (kids_points a). rewrite Q. cbn [bindr]. rewrite cs_between, B, collapse_nothing. eexists. split; [reflexivity|]. cbn [concat]. apply out_app; assumption.
Qed.
Lemma kids_last a : a_after a = [] -> a_between a = [] -> forall es ss e s, Forall2 has es ss -> solid e s -> exists ps, kids_points a (es ++ [e]) = Ok ps /\ out ps (concat ss ++ s) /\ ends ps.
Proof.
  intros A B. induction es as [|x es IH]; intros ss e s F S; inversion F as [|? y ? ss' H F']; subst.
  - destruct S as (ps & P & O & N). exists ps. cbn. rewrite P. cbn [bindr]. rewrite A, collapse_nothing. split; [destruct (tail_point a); reflexivity|auto].
  - destruct H as (ps & P & O). destruct (IH _ _ _ F' S) as (qs & Q & OQ & N). cbn [app kids_points]. rewrite P. cbn [bindr]. fold (kids_points a). destruct (es ++ [e]) as [|m r] eqn:E; [destruct es; discriminate|]. rewrite Q. cbn [bindr].
    rewrite cs_between, B, collapse_nothing. eexists. split; [reflexivity|]. cbn [concat]. rewrite <- app_assoc. split; [apply out_app; assumption|apply ends_app; exact N].
Qed.
(** with a space before every item *)
Definition spaced_all (ss : list str) : str := flat_map (fun s => txt " " ++ s) ss.
Lemma kids_space a : a_after a = [] -> a_between a = txt " " -> forall es ss e s, solid e s -> Forall2 solid es ss -> exists ps, kids_points a (e :: es) = Ok ps /\ out ps (s ++ spaced_all ss).
Proof.
  intros A B. induction es as [|x es IH]; intros ss e s S F; inversion F as [|? y ? ss' H F']; subst.
  - destruct S as (ps & P & O & N). exists ps. cbn. rewrite P. cbn [bindr]. rewrite A, collapse_nothing, app_nil_r. split; [destruct (tail_point a); reflexivity|auto].
  - destruct (IH _ _ _ H F') as (qs & Q & OQ). destruct S as (ps & P & O & N). cbn [kids_points]. rewrite P. cbn [bindr]. change (kids_points a (x :: es)) with (kids_points a (x :: es)) in Q.
    cbn [kids_points] in Q. rewrite Q. cbn [bindr]. rewrite cs_between, B. eexists. split; [reflexivity|]. cbn [spaced_all flat_map]. rewrite <- app_assoc. apply collapse_space; auto.
    intros Z. apply app_eq_nil in Z. apply solid_ne in H. tauto.
Qed.
Lemma has_plain es ss : Forall2 has es ss -> has (E (new_attrs Plain [] [] []) es) (concat ss).
Proof.
  intros F. destruct (kids_plain (new_attrs Plain [] [] []) eq_refl eq_refl es ss F) as (ps & P & O). exists ps. rewrite points_eq, P. cbn. rewrite app_nil_r. auto.
Qed.
Lemma solid_plain es ss e s : Forall2 has es ss -> solid e s -> solid (E (new_attrs Plain [] [] []) (es ++ [e])) (concat ss ++ s).
Proof.
  intros F S. destruct (kids_last (new_attrs Plain [] [] []) eq_refl eq_refl es ss e s F S) as (ps & P & O & N). exists ps. rewrite points_eq, P. cbn. rewrite app_nil_r. auto.
Qed.
Lemma solid_block h t b es s : h <> [] -> t <> [] -> (exists ps, kids_points (new_attrs Block h t b) es = Ok ps /\ out ps s) -> solid (E (new_attrs Block h t b) es) (h ++ s ++ t).
Proof.
  intros NH NT (ps & P & O). eexists. rewrite points_eq, P. split; [reflexivity|]. cbn [opt_list tail_point new_attrs a_kind app]. split.
  - apply out_text; auto; [cbn; destruct (length es =? 0); destruct t; reflexivity|]. apply out_app; [exact O|]. pose proof (out_text (Point None (Ok t) false [] []) [] t [] eq_refl eq_refl NT eq_refl out_nil) as H. rewrite app_nil_r in H. exact H.
  - constructor. apply ends_app. econstructor; [reflexivity|exact NT].
Qed.
Lemma solid_element e s : solid e s -> solid (E (new_attrs Plain [] [] []) [e]) s.
Proof. intros S. apply (solid_plain [] [] e s); [constructor|exact S]. Qed.

Lemma collapse_more w : collapse_whitespace (w ++ [[]]) = collapse_whitespace w.
Proof. destruct w as [|a w]; [reflexivity|]. cbn [app collapse_whitespace]. rewrite fold_left_app. apply (collapse_first (fold_left _ w a)). Qed.
Lemma combine_out ps s : out ps s -> exists fs, fragments ps = Ok fs /\ forall res w, exists r, fst (combine_loop fs res w) = res ++ r /\
  (s = [] -> r = []) /\ (s <> [] -> exists r', r = collapse_whitespace w :: r' /\ concat r' = s).
Proof.
  intros O. induction O as [|p ps s B T F O IH|p ps x s B T NT F O IH|p ps x s B T NT F O IH NS].
  - exists []. split; [reflexivity|]. intros res w. exists []. cbn. rewrite app_nil_r. repeat split; auto. contradiction.
  - destruct IH as (fs & FS & IH). cbn. rewrite T, FS. cbn. eexists. split; [reflexivity|]. intros res w. cbn [combine_loop]. rewrite B, F. cbn [truthy].
    destruct (IH res ((w ++ [[]]) ++ [[]])) as (r & E & Z). rewrite !collapse_more in Z. exists r. auto.
  - destruct IH as (fs & FS & IH). cbn. rewrite T, FS. cbn. eexists. split; [reflexivity|]. intros res w. cbn [combine_loop]. rewrite B, F. destruct x as [|c x]; [contradiction|]. cbn [truthy]. rewrite collapse_more.
    destruct (IH (res ++ [collapse_whitespace w; c :: x]) [[]]) as (r & E & Z & NZ). exists (collapse_whitespace w :: (c :: x) :: r). split; [etransitivity; [exact E|]; rewrite <- app_assoc; reflexivity|]. split; [discriminate|]. intros _. exists ((c :: x) :: r). split; [reflexivity|].
    destruct s as [|d s]; [rewrite (Z eq_refl); reflexivity|]. destruct (NZ ltac:(discriminate)) as (r' & -> & CR). cbn [concat app collapse_whitespace fold_left]. rewrite CR. reflexivity.
  - destruct IH as (fs & FS & IH). cbn. rewrite T, FS. cbn. eexists. split; [reflexivity|]. intros res w. cbn [combine_loop]. rewrite B, F. destruct x as [|c x]; [contradiction|]. cbn [truthy]. rewrite collapse_more.
    destruct (IH (res ++ [collapse_whitespace w; c :: x]) [txt " "]) as (r & E & Z & NZ). exists (collapse_whitespace w :: (c :: x) :: r). split; [etransitivity; [exact E|]; rewrite <- app_assoc; reflexivity|]. split; [discriminate|]. intros _. exists ((c :: x) :: r). split; [reflexivity|].
    destruct (NZ NS) as (r' & -> & CR). cbn [concat app collapse_whitespace fold_left]. rewrite CR. reflexivity.
Qed.
Lemma has_write e s : has e s -> write cs e = Ok s.
Proof.
  intros (ps & P & O). unfold write. rewrite P. cbn [bindr]. destruct (combine_out ps s O) as (fs & F & C). rewrite F. cbn [bindr].
  unfold combine_text. destruct (C [] []) as (r & E & Z & N). destruct (combine_loop fs [] []) as [r0 w0]. cbn [fst app] in E. subst r0.
  destruct s as [|c s]; [rewrite (Z eq_refl); reflexivity|]. destruct (N ltac:(discriminate)) as (r' & -> & CR). cbn [skipn]. rewrite CR. reflexivity.
Qed.
End Flat.

(** ** C98 *)
Section C98.
Variable other : nat -> str -> attrs.
Notation elem_of := (elem_of other).
(** The program: contents are made with [m]. *)
Fixpoint build (c : content) : str + hnode :=
  match c with
  | CText s => inl s
  | CEntity n => inr (leaf HEntityRef n)
  | CElem n a k => inr (m n (map build k) a)
  end.
Lemma content_ind' (P : content -> Prop) : (forall s, P (CText s)) -> (forall n, P (CEntity n)) -> (forall n a k, Forall P k -> P (CElem n a k)) -> forall c, P c.
Proof. intros H1 H2 H3. fix IH 1. intros [s|n|n a k]; [apply H1|apply H2|apply H3]. induction k as [|c k IHk]; constructor; [apply IH|exact IHk]. Qed.
Lemma attributes_solid : forall a, Forall (fun kv : str * option str => fst kv <> []) a -> exists ss, Forall2 (solid concat_default) (map elem_of (map attribute a)) ss /\ markup_attrs (spaced_all ss) a.
Proof.
  induction a as [|[key v] a IH]; intros F; [exists []; split; constructor|]. inversion F as [|? ? NK F']; subst. cbn in NK. destruct (IH F') as (ss & S & M). destruct v as [v|].
  - exists ((key ++ txt "=""" ++ Heads_Model.html_write v ++ txt """") :: ss). split.
    + constructor; [|exact S]. cbn [attribute map Htm_Model.elem_of attrs_of leaf].
      assert (Q : solid concat_default (E (new_attrs Block (txt """") (txt """") []) [E (new_attrs Head (Heads_Model.html_write v) [] []) []]) (txt """" ++ Heads_Model.html_write v ++ txt """")).
      { apply solid_block; try discriminate. destruct (kids_plain concat_default (fun _ _ _ => eq_refl) (new_attrs Block (txt """") (txt """") []) eq_refl eq_refl [E (new_attrs Head (Heads_Model.html_write v) [] []) []] [Heads_Model.html_write v]) as (ps & P & O); [repeat constructor; apply has_leaf|].
        cbn [concat] in O. rewrite app_nil_r in O. eauto. }
      pose proof (solid_plain concat_default (fun _ _ _ => eq_refl) [E (new_attrs Head key [] []) []; E (new_attrs Head (txt "=") [] []) []] [key; txt "="] _ _ ltac:(repeat constructor; apply has_leaf) Q) as H.
      cbn [concat app] in H. rewrite app_nil_r in H. rewrite <- app_assoc in H. exact H.
    + unfold spaced_all in *. cbn [flat_map]. pose proof (attrs_value key v (Heads_Model.html_write v) _ a (Heads_Props.C82_text v) M) as H. rewrite <- !app_assoc in *. exact H.
  - exists (key :: ss). split.
    + constructor; [|exact S]. apply solid_element; [reflexivity|]. apply solid_leaf. exact NK.
    + unfold spaced_all in *. cbn [flat_map]. rewrite <- app_assoc. apply attrs_bare. exact M.
Qed.
Lemma tag_solid h t n a : h <> [] -> t <> [] -> n <> [] -> Forall (fun kv : str * option str => fst kv <> []) a ->
  exists s, solid concat_default (E (new_attrs Block h t (txt " ")) (map elem_of (leaf HTagName n :: map attribute a))) (h ++ n ++ s ++ t) /\ markup_attrs s a.
Proof.
  intros NH NT NN F. destruct (attributes_solid a F) as (ss & S & M). exists (spaced_all ss). split; [|exact M]. rewrite (app_assoc n). apply solid_block; auto.
  apply (kids_space concat_default (fun _ _ _ => eq_refl)); auto. apply solid_leaf. exact NN.
Qed.
(** What is written is markup for the contents that were given. *)
Lemma build_has : forall c, named c -> exists s, has concat_default (elem_of (child (build c))) s /\ markup s c.
Proof.
  refine (content_ind' _ _ _ _).
  - intros s _. exists (Heads_Model.html_write s). split; [apply has_leaf|constructor; apply Heads_Props.C82_text].
  - intros n _. exists (Heads_Model.entity_write n). split; [apply has_leaf|]. exact (markup_entity n).
  - intros n a k IH N. inversion N as [| |? ? ? NN NA NK]; subst. cbn [build child]. destruct k as [|c k].
    + cbn [m map]. destruct (tag_solid (txt "<") (txt "/>") n a) as (s & S & M); try assumption; try discriminate.
      eexists. split; [|apply markup_single; exact M]. apply solid_has, solid_element; [reflexivity|]. exact S.
    + remember (c :: k) as ks eqn:EK. destruct (tag_solid (txt "<") (txt ">") n a) as (s & S & M); try assumption; try discriminate.
      destruct (tag_solid (txt "</") (txt ">") n []) as (s' & S' & M'); try assumption; try discriminate; [constructor|]. inversion M'; subst s'. cbn [app] in S'.
      assert (K : exists ss, Forall2 (has concat_default) (map elem_of (map child (map build ks))) ss /\ markup_list (concat ss) ks).
      { clear EK N. induction ks as [|x ks IHk]; [exists []; split; constructor|]. inversion IH as [|? ? HX IH']; subst. inversion NK as [|? ? NX NK']; subst.
        destruct (HX NX) as (y & Y & MY), (IHk IH' NK') as (ss & SS & MS). exists (y :: ss). split; [constructor; assumption|]. cbn [concat]. constructor; assumption. }
      destruct K as (ss & SS & MS).
      exists (txt "<" ++ n ++ s ++ txt ">" ++ concat ss ++ txt "</" ++ n ++ txt ">"). split; [|constructor; assumption].
      assert (E : m n (map build ks) a = Hn HElement [] (Hn HOpenTag [] (leaf HTagName n :: map attribute a) :: map child (map build ks) ++ [Hn HCloseTag [] [leaf HTagName n]])) by (rewrite EK; reflexivity).
      rewrite E. cbn [Htm_Model.elem_of attrs_of map]. rewrite map_app. cbn [map].
      apply solid_has. pose proof (solid_plain concat_default (fun _ _ _ => eq_refl) (elem_of (Hn HOpenTag [] (leaf HTagName n :: map attribute a)) :: map elem_of (map child (map build ks))) ((txt "<" ++ n ++ s ++ txt ">") :: ss) _ _
        ltac:(constructor; [apply solid_has; exact S|exact SS]) S') as H.
      cbn [concat] in H. rewrite <- !app_assoc in H. exact H.
Qed.
Theorem C98_write : forall c, named c -> exists s, write concat_default (elem_of (child (build c))) = Ok s /\ markup s c.
Proof. intros c N. destruct (build_has c N) as (s & H & M). exists s. split; [apply has_write; exact H|exact M]. Qed.
End C98.
(** The plain text is the text without markup. *)
Section Plain.
Variable unescape : str -> str.
Lemma default_content : forall n a k ss, Forall2 (text_of_content unescape) k ss -> to_plaintext_default unescape (m n (map build k) a) = concat ss.
Proof.
  assert (G : forall c, (forall n a k, c = CElem n a k -> forall s, text_of_content unescape c s -> to_plaintext_default unescape (m n (map build k) a) = s)).
  { refine (content_ind' _ _ _ _); try discriminate. intros n a k IH n' a' k' E s T. injection E as <- <- <-. inversion T as [| |? ? ? ss F]; subst.
    assert (K : concat (map (fun o => match o with Hn HElement _ _ => to_plaintext_default unescape o | Hn HText h _ => h | Hn HEntityRef h _ => unescape h | _ => [] end) (map child (map build k))) = concat ss).
    { clear T. induction F as [|c s k ss TC F IHF]; [reflexivity|]. inversion IH as [|? ? HC IH']; subst. cbn [map concat]. rewrite (IHF IH'). f_equal. inversion TC as [s0 E0|n0 E0|n0 a0 k0 ss0 F0 E0]; subst; [reflexivity|reflexivity|].
      cbn [build child]. pose proof (HC n0 a0 k0 eq_refl _ TC) as H. destruct k0; exact H. }
    destruct k as [|c k]; [inversion F; reflexivity|]. unfold m. cbn [map]. cbn [map] in K. cbn [to_plaintext_default]. cbn [map concat app]. rewrite <- K. cbn [concat]. rewrite map_app, concat_app. cbn. rewrite app_nil_r. reflexivity. }
  intros n a k ss F. apply (G (CElem n a k) n a k eq_refl). constructor. exact F.
Qed.
Theorem C98_plaintext : forall n a k s, text_of_content unescape (CElem n a k) s -> to_plaintext unescape None (m n (map build k) a) = s.
Proof.
  intros n a k s T. inversion T as [| |? ? ? ss F]; subst. rewrite <- (default_content n a k ss F). destruct (m n (map build k) a) as [c h kids]. cbn [to_plaintext to_plaintext_default]. reflexivity.
Qed.
(** With a resolver, the entities that are directly in the element are resolved by it. *)
(** Missing for the full claim: the entities in nested elements (C98_resolver_finding). *)
Theorem C98_resolver_partial : forall n a k r s, Forall2 (fun c s => match c with CEntity name => r name = RStr s | _ => text_of_content unescape c s end) k s ->
  to_plaintext unescape (Some r) (m n (map build k) a) = concat s.
Proof.
  intros n a k r ss F. destruct k as [|c k]; [inversion F; reflexivity|].
  assert (E : m n (map build (c :: k)) a = Hn HElement [] (Hn HOpenTag [] (leaf HTagName n :: map attribute a) :: map child (map build (c :: k)) ++ [Hn HCloseTag [] [leaf HTagName n]])) by reflexivity.
  rewrite E. clear E. revert F. generalize (c :: k). clear c k. intros k F. cbn [to_plaintext]. rewrite map_cons. cbn [concat to_text app].
  rewrite map_app, concat_app. cbn. rewrite app_nil_r. induction F as [|c s k ss TC F IHF]; [reflexivity|]. cbn [map concat]. rewrite IHF. f_equal. destruct c as [t|t|t b l].
  - inversion TC; subst. reflexivity.
  - cbn. rewrite TC. reflexivity.
  - inversion TC as [| |? ? ? ss0 F0]; subst. rewrite <- (default_content t b l ss0 F0). cbn [build child]. destruct l; reflexivity.
Qed.
(** The resolver may also answer with an element or a text node. *)
Theorem C98_resolver_node : forall n a name r c s, (forall t, c <> CEntity t) -> r name = RNode (child (build c)) -> text_of_content unescape c s ->
  to_plaintext unescape (Some r) (m n [inr (leaf HEntityRef name)] a) = s.
Proof.
  intros n a name r c s NE R T. cbn. rewrite R, app_nil_r. destruct c as [t|t|n' a' k]; [inversion T; reflexivity|destruct (NE t eq_refl)|].
  inversion T as [| |? ? ? ss F]; subst. rewrite <- (default_content n' a' k ss F). cbn [build child]. destruct k; reflexivity.
Qed.
(** Finding: not so in nested elements. *)
Theorem C98_resolver_finding : forall n a n' a' name r, to_plaintext unescape (Some r) (m n [inr (m n' [inr (leaf HEntityRef name)] a')] a) = unescape name.
Proof. intros. cbn. rewrite !app_nil_r. reflexivity. Qed.
End Plain.
Print Assumptions C98_write. Print Assumptions C98_plaintext. Print Assumptions C98_resolver_partial. Print Assumptions C98_resolver_node. Print Assumptions C98_resolver_finding.
Example C98_witness : let c := CElem (txt "p") [(txt "class", Some (txt "a&b")); (txt "hidden", None)] [CText (txt "x<y "); CEntity (txt "euml"); CElem (txt "br") [] []; CText []] in
  named c /\ write concat_default (elem_of (fun _ _ => new_attrs Plain [] [] []) (child (build c))) = Ok (txt "<p class=""a&amp;b"" hidden>x&lt;y &euml;<br/></p>") /\
  text_of_content (fun s => s) c (txt "x<y euml").
Proof.
  cbv zeta. split; [repeat constructor; discriminate|]. split; [reflexivity|].
  apply (tc_elem _ _ _ _ [txt "x<y "; txt "euml"; []; []]). repeat constructor. apply (tc_elem _ _ _ _ []). constructor.
Qed.
