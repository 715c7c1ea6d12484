(** Property C59: following includes. *)
From Coq Require Import String Ascii List Arith Bool Lia.
From Verif Require Import Base Scope_Model Scope_Spec.
Import ListNotations.

Lemma str_eqb_eq : forall a b, str_eqb a b = true <-> a = b.
Proof. intros. unfold str_eqb. destruct (list_eq_dec ascii_dec a b); split; congruence. Qed.
Lemma url_eqb_eq : forall a b, url_eqb a b = true <-> a = b.
Proof.
  intros [a|] [b|]; cbn; try (split; congruence). rewrite str_eqb_eq. split; congruence.
Qed.
Lemma mem_str : forall u l, existsb (str_eqb u) l = true <-> In u l.
Proof.
  intros. rewrite existsb_exists. split; [intros (x & I & E); apply str_eqb_eq in E; subst; exact I|]. intros I. exists u. split; [exact I|apply str_eqb_eq; reflexivity].
Qed.
Lemma mem_url : forall u l, existsb (url_eqb u) l = true <-> In u l.
Proof.
  intros. rewrite existsb_exists. split; [intros (x & I & E); apply url_eqb_eq in E; subst; exact I|]. intros I. exists u. split; [exact I|apply url_eqb_eq; reflexivity].
Qed.

Fixpoint scope_ind2 (Q : scope -> Prop) (H0 : forall d i r, Q (Scope d None i r)) (H1 : forall d p i r, Q p -> Q (Scope d (Some p) i r)) (s : scope) : Q s :=
  match s with
  | Scope d None i r => H0 d i r
  | Scope d (Some p) i r => H1 d p i r (scope_ind2 Q H0 H1 p)
  end.

Lemma chain_eq : forall s, chain s (document s :: map document (ancestors s)).
Proof.
  induction s as [d i r|d p i r IH] using scope_ind2; cbn [document ancestors map]; constructor. exact IH.
Qed.
Lemma chain_fun : forall s l, chain s l -> l = document s :: map document (ancestors s).
Proof. induction 1 as [d i r|d p l i r C IH]; [reflexivity|]. cbn [document ancestors map]. f_equal. exact IH. Qed.
Lemma root_eq : forall s, root_url s (document (root s)).
Proof.
  intros s. unfold root.
  assert (G : forall s x, match ancestors s with [] => True | _ => root_url s (document (fold_left (fun _ a => a) (ancestors s) x)) end).
  { clear. induction s as [d i r|d p i r IH] using scope_ind2; intros x; cbn [ancestors]; [exact Logic.I|]. cbn [fold_left].
    constructor. specialize (IH p). destruct p as [d' [p'|] i' r']; [exact IH|]. cbn. constructor. }
  specialize (G s s). destruct s as [d [p|] i r]; [exact G|]. cbn. constructor.
Qed.
Lemma root_fun : forall s u, root_url s u -> u = document (root s).
Proof.
  intros s u R. pose proof (root_eq s) as R'. revert R'. generalize (document (root s)). induction R as [d i r|d p u i r R IH]; intros v R'; inversion R'; subst; auto.
Qed.

Lemma slash_dec : forall u, (endswith_slash u = true -> exists x, u = x ++ ["/"%char]) /\ (endswith_slash u = false -> forall x, u <> x ++ ["/"%char]).
Proof.
  induction u as [|c [|c' u] IH]; cbn [endswith_slash].
  - split; [discriminate|]. intros _ [|y x]; discriminate.
  - split.
    + intros E. apply Ascii.eqb_eq in E. exists []. subst. reflexivity.
    + intros E [|y [|z x]] F; cbn in F; try discriminate. injection F as ->. discriminate.
  - destruct IH as [A B]. split.
    + intros E. destruct (A E) as (x & F). exists (c :: x). rewrite F. reflexivity.
    + intros E [|y x] F; [discriminate|]. cbn in F. injection F as -> F. exact (B E x F).
Qed.
Lemma directory_eq : forall u, directory u (if endswith_slash u then u else u ++ [slash]).
Proof.
  intros u. destruct (slash_dec u) as [A B]. destruct (endswith_slash u); [left|right].
  - destruct (A eq_refl) as (x & E). exists x. auto.
  - split; [apply B; reflexivity|reflexivity].
Qed.
Lemma directory_fun : forall u d, directory u d -> d = if endswith_slash u then u else u ++ [slash].
Proof.
  intros u d D. destruct (slash_dec u) as [A B]. destruct D as [(x & E & ->)|[N ->]].
  - destruct (endswith_slash u); [reflexivity|]. exfalso. exact (B eq_refl x E).
  - destruct (endswith_slash u); [|reflexivity]. destruct (A eq_refl) as (x & E). exfalso. exact (N x E).
Qed.

Section P.
Variable urljoin : str -> str -> str.
Variable urlpath : str -> str.
Variable factory : str -> option durl.
Notation urls := (urls urljoin).
Notation candidates := (candidates urljoin).

Fixpoint F (seen l : list str) : list str :=
  match l with [] => [] | x :: r => if existsb (str_eqb x) seen then F seen r else x :: F (x :: seen) r end.

Lemma F_firsts : forall l seen, firsts (filter (fun u => negb (existsb (str_eqb u) seen)) l) (F seen l).
Proof.
  induction l as [|x l IH]; intros seen; [constructor|]. cbn [filter F]. destruct (existsb (str_eqb x) seen) eqn:E; cbn [negb]; [apply IH|].
  constructor. specialize (IH (x :: seen)). match goal with H : firsts ?a _ |- firsts ?b _ => replace b with a; [exact H|] end.
  clear. induction l as [|y l IH]; [reflexivity|]. cbn [filter]. cbn [existsb]. destruct (str_eqb y x) eqn:E1; cbn [orb negb].
  - apply str_eqb_eq in E1. subst y. destruct (negb (existsb (str_eqb x) seen)); cbn [filter]; [|exact IH].
    assert (str_eqb x x = true) as -> by (apply str_eqb_eq; reflexivity). exact IH.
  - destruct (negb (existsb (str_eqb y) seen)); cbn [filter]; [|exact IH].
    assert (str_eqb x y = false) as ->. { destruct (str_eqb x y) eqn:E2; [|reflexivity]. apply str_eqb_eq in E2. subst. rewrite (proj2 (str_eqb_eq y y) eq_refl) in E1. discriminate. }
    cbn [negb]. f_equal. exact IH.
Qed.
Lemma firsts_fun : forall l r, firsts l r -> forall r', firsts l r' -> r = r'.
Proof. induction 1 as [|x l r H IH]; intros r' H'; inversion H'; subst; [reflexivity|]. f_equal. auto. Qed.

Definition fresh (skip : list durl) (u : str) : bool := negb (existsb (url_eqb (Some u)) skip).

Lemma fold_add : forall skip name bs acc seen,
  (forall u, fresh skip u = true -> (In u acc <-> In u seen)) ->
  fold_left (add_url urljoin skip name) bs acc = acc ++ filter (fresh skip) (F seen (candidates bs name)).
Proof.
  intros skip name. induction bs as [|b bs IH]; intros acc seen H; [cbn; rewrite app_nil_r; reflexivity|].
  cbn [fold_left Scope_Spec.candidates flat_map]. destruct b as [[|c b]|]; cbn [add_url app]; [apply IH; exact H| |apply IH; exact H].
  set (u := urljoin (c :: b) name). cbn [F]. fold candidates.
  change (flat_map _ bs) with (candidates bs name).
  destruct (existsb (url_eqb (Some u)) skip) eqn:E1; cbn [orb].
  - assert (FR : fresh skip u = false) by (unfold fresh; rewrite E1; reflexivity).
    destruct (existsb (str_eqb u) seen) eqn:E2; [apply IH; exact H|]. cbn [filter]. rewrite FR.
    apply IH. intros v V. rewrite (H v V). cbn. split; [auto|]. intros [<-|I]; [congruence|exact I].
  - assert (FR : fresh skip u = true) by (unfold fresh; rewrite E1; reflexivity).
    destruct (existsb (str_eqb u) acc) eqn:E2.
    + apply mem_str in E2. apply (H u FR) in E2. apply mem_str in E2. rewrite E2. apply IH. exact H.
    + destruct (existsb (str_eqb u) seen) eqn:E3.
      { apply mem_str in E3. apply (H u FR) in E3. apply mem_str in E3. congruence. }
      cbn [filter]. rewrite FR. rewrite (IH (acc ++ [u]) (u :: seen)); [rewrite <- app_assoc; reflexivity|].
      intros v V. rewrite in_app_iff. cbn. rewrite (H v V). tauto.
Qed.

Lemma urls_fold : forall s name bs, bases s bs ->
  urls s name = fold_left (add_url urljoin (document s :: map document (ancestors s)) name) bs [].
Proof.
  intros s name bs (r & ds & R & D & ->). apply root_fun in R. subst r. unfold Scope_Model.urls.
  assert (E : map Some ds = map (fun u => Some (if endswith_slash u then u else u ++ [slash])) (include_path s)).
  { clear -D. induction D as [|u d us ds X D IH]; [reflexivity|]. cbn. rewrite IH, <- (directory_fun _ _ X). reflexivity. }
  rewrite E. clear. rewrite fold_left_app.
  assert (G : forall sk l acc, fold_left (add_url urljoin sk name) (map (fun u => Some (if endswith_slash u then u else u ++ [slash])) l) acc
     = fold_left (fun l u => add_url urljoin sk name l (Some (if endswith_slash u then u else u ++ [slash]))) l acc).
  { induction l as [|u l IH]; intros acc; [reflexivity|]. cbn. apply IH. }
  cbn [fold_left]. rewrite G. destruct (relative_include s); reflexivity.
Qed.

(** urls(name): the different candidates in order, without the documents of the chain. *)
Theorem C59_urls : forall s name l bs, chain s l -> bases s bs ->
  exists r, firsts (candidates bs name) r /\ urls s name = filter (fun u => negb (existsb (url_eqb (Some u)) l)) r.
Proof.
  intros s name l bs C B. exists (F [] (candidates bs name)). split.
  - pose proof (F_firsts (candidates bs name) []) as H. replace (filter _ (candidates bs name)) with (candidates bs name) in H; [exact H|].
    cbn [existsb negb]. clear. induction (candidates bs name) as [|x r IH]; [reflexivity|]. cbn. f_equal. exact IH.
  - rewrite (urls_fold s name bs B), (fold_add _ _ _ _ []) by tauto. apply chain_fun in C. subst l. reflexivity.
Qed.

Lemma bases_some : forall s, exists bs, bases s bs.
Proof.
  intros s. eexists. exists (document (root s)), (map (fun u => if endswith_slash u then u else u ++ [slash]) (include_path s)).
  split; [apply root_eq|]. split; [|reflexivity]. induction (include_path s) as [|u us IH]; constructor; [apply directory_eq|exact IH].
Qed.

Lemma firsts_in : forall l r, firsts l r -> NoDup r /\ forall u, In u r <-> In u l.
Proof.
  induction 1 as [|x l r H IH]; [split; [constructor|tauto]|]. destruct IH as [N I]. split.
  - constructor; [|exact N]. rewrite I, filter_In. intros [_ E]. rewrite (proj2 (str_eqb_eq x x) eq_refl) in E. discriminate.
  - intros u. cbn. rewrite I, filter_In. split; [tauto|]. intros [->|J]; [auto|]. destruct (str_eqb x u) eqn:E; [apply str_eqb_eq in E; auto|]. auto.
Qed.

(** No url twice, no url of the scope or a scope including it. *)
Theorem C59_no_repeat : forall s name l, chain s l -> NoDup (urls s name) /\ forall u, In u (urls s name) -> ~ In (Some u) l.
Proof.
  intros s name l C. destruct (bases_some s) as (bs & B). destruct (C59_urls s name l bs C B) as (r & H & ->).
  apply firsts_in in H. split; [apply NoDup_filter; apply H|]. intros u I J. apply filter_In in I. destruct I as [_ I].
  apply mem_url in J. rewrite J in I. discriminate.
Qed.

Lemma first_document_spec : forall l d, first_document urlpath factory l = Some d ->
  exists l1 u l2, l = l1 ++ u :: l2 /\ factory (urlpath u) = Some d /\ Forall (fun v => factory (urlpath v) = None) l1.
Proof.
  induction l as [|u l IH]; intros d E; [discriminate|]. cbn [first_document] in E. unfold get_document in E.
  destruct (factory (urlpath u)) as [d'|] eqn:G.
  - injection E as ->. exists [], u, l. repeat split; auto.
  - destruct (IH d E) as (l1 & v & l2 & -> & A & B). exists (u :: l1), v, l2. repeat split; auto.
Qed.

(** include_scope(name): the first url for which there is a document; the settings are inherited. *)
Theorem C59_include : forall s name,
  match include_scope urljoin urlpath factory s name with
  | Some t => exists l1 u l2, urls s name = l1 ++ u :: l2 /\ factory (urlpath u) = Some (document t) /\
                Forall (fun v => factory (urlpath v) = None) l1 /\ parent t = Some s /\
                include_path t = include_path s /\ relative_include t = relative_include s
  | None => Forall (fun v => factory (urlpath v) = None) (urls s name)
  end.
Proof.
  intros s name. unfold include_scope. destruct (first_document urlpath factory (urls s name)) as [d|] eqn:E.
  - destruct (first_document_spec _ _ E) as (l1 & u & l2 & A & B & C). exists l1, u, l2. cbn. repeat split; auto.
  - revert E. generalize (urls s name). induction l as [|u l IH]; intros E; [constructor|]. cbn [first_document] in E. unfold get_document in E.
    destruct (factory (urlpath u)) eqn:G; [discriminate|]. constructor; auto.
Qed.

Lemma step_chain : forall t name u, include_scope urljoin urlpath factory t name = Some u -> faithful urlpath factory ->
  forall l, chain t l -> exists x, document u = Some x /\ chain u (Some x :: l) /\ ~ In (Some x) l /\ (exists f, factory f = Some (Some x)).
Proof.
  intros t name u I Fa l C. pose proof (C59_include t name) as H. rewrite I in H.
  destruct H as (l1 & x & l2 & A & B & _ & P & _). pose proof (Fa _ _ B) as D. rewrite D in B. exists x. split; [exact D|]. split.
  - destruct u as [d p i r]. cbn in D, P. subst. constructor. exact C.
  - split; [|eauto]. apply (proj2 (C59_no_repeat t name l C) x). rewrite A. apply in_or_app. right. left. reflexivity.
Qed.

(** By default includes are looked for relative to the document that has the include, and there is no include path. *)
Theorem C59_defaults : forall d t, included urljoin urlpath factory (new_scope d None) t -> include_path t = [] /\ relative_include t = true.
Proof.
  intros d t I. remember (new_scope d None) as s eqn:ES. induction I as [|t name u I IH S]; [subst; split; reflexivity|]. pose proof (C59_include t name) as X. rewrite S in X. destruct X as (? & ? & ? & _ & _ & _ & _ & -> & ->). auto.
Qed.

(** In a chain of includes all urls are different.
    Missing for the full claim: documents whose url is not the requested one (C59_file_url_finding). *)
Theorem C59_chain_partial : forall s ls t, faithful urlpath factory -> chain s ls -> NoDup ls -> included urljoin urlpath factory s t ->
  exists new, chain t (new ++ ls) /\ NoDup (new ++ ls) /\ forall u, In u new -> exists f, factory f = Some u.
Proof.
  intros s ls t Fa C N I. induction I as [|t name u I IH S].
  - exists []. split; [exact C|]. split; [exact N|]. intros u [].
  - destruct IH as (new & C' & N' & FF). destruct (step_chain t name u S Fa _ C') as (x & D & C2 & NI & Fx).
    exists (Some x :: new). split; [exact C2|]. split; [constructor; assumption|]. intros v [<-|J]; auto.
Qed.

(** So if there are finitely many documents, includes can be nested only as deep as there are documents.
    Missing for the full claim: as C59_chain_partial. *)
Theorem C59_finite_partial : forall files s ls t lt, faithful urlpath factory -> (forall f d, factory f = Some d -> In d files) ->
  chain s ls -> NoDup ls -> included urljoin urlpath factory s t -> chain t lt -> length lt <= length files + length ls.
Proof.
  intros files s ls t lt Fa Fi C N I C'. destruct (C59_chain_partial s ls t Fa C N I) as (new & C2 & N2 & FF).
  apply chain_fun in C2. apply chain_fun in C'. rewrite C', <- C2, app_length.
  assert (L : length new <= length files). { apply NoDup_incl_length; [|intros u J; destruct (FF u J) as (f & E); eauto].
    clear -N2. induction new as [|x new IH]; [constructor|]. inversion N2; subst. constructor; [|auto]. intros J. apply H1. apply in_or_app. left. exact J. }
  lia.
Qed.
End P.
Print Assumptions C59_urls.
Print Assumptions C59_no_repeat.
Print Assumptions C59_include.
Print Assumptions C59_defaults.
Print Assumptions C59_chain_partial.
Print Assumptions C59_finite_partial.

(** Examples: two files that include each other, absolute paths as urls. *)
Local Open Scope string_scope.
Definition s_ (x : string) : str := list_ascii_of_string x.
Definition dir_join (base name : str) : str :=
  ((fix go (acc cur l : str) : str := match l with [] => acc | c :: r => let cur := (cur ++ [c])%list in if Ascii.eqb c slash then go cur cur r else go acc cur r end) [] [] base ++ name)%list.
Definition two_files (f : str) : option durl := if str_eqb f (s_ "/a/x.ly") then Some (Some f) else if str_eqb f (s_ "/lib/y.ly") then Some (Some f) else None.
Definition m_scope : scope := Scope (Some (s_ "/a/m.ly")) None [s_ "/lib"] true.
Example C59_witness :
  faithful (fun u => u) two_files /\ bases m_scope [Some (s_ "/a/m.ly"); Some (s_ "/a/m.ly"); Some (s_ "/lib/")] /\
  urls dir_join m_scope (s_ "y.ly") = [s_ "/a/y.ly"; s_ "/lib/y.ly"] /\
  urls dir_join m_scope (s_ "m.ly") = [s_ "/lib/m.ly"] /\
  option_map document (include_scope dir_join (fun u => u) two_files m_scope (s_ "y.ly")) = Some (Some (s_ "/lib/y.ly")) /\
  include_scope dir_join (fun u => u) two_files m_scope (s_ "m.ly") = None.
Proof.
  split; [|split; [|repeat split]].
  - intros u d. unfold two_files. destruct (str_eqb u (s_ "/a/x.ly")); [congruence|]. destruct (str_eqb u (s_ "/lib/y.ly")); congruence.
  - exists (Some (s_ "/a/m.ly")), [s_ "/lib/"]. split; [constructor|]. split; [|reflexivity]. constructor; [|constructor].
    right. split; [|reflexivity]. intros x E. destruct (slash_dec (s_ "/lib")) as [_ B]. exact (B eq_refl x E).
Qed.

(** If the urls given to documents are not the urls they were asked for by, includes can recurse for ever: the default
    factory loads the path of a url, and the document gets that path as its url.  With a root document that has
    a file url, a file that includes itself is included again and again. *)
Theorem C59_file_url_finding : forall urljoin urlpath factory,
  let m := s_ "file:///a/m.ly" in let x := s_ "/a/x.ly" in let name := s_ "x.ly" in
  urljoin m name = s_ "file:///a/x.ly" -> urljoin x name = x ->
  urlpath (s_ "file:///a/x.ly") = x -> factory x = Some (Some x) ->
  forall n, exists t, included urljoin urlpath factory (Scope (Some m) None [] true) t /\ chain t ((repeat (Some x) n ++ [Some m])%list).
Proof.
  intros urljoin urlpath factory m x name J1 J2 Pa Fx.
  assert (G : forall n, exists t, included urljoin urlpath factory (Scope (Some m) None [] true) t /\
     chain t ((repeat (Some x) n ++ [Some m])%list) /\ include_path t = [] /\ relative_include t = true /\ (document t = Some x \/ document t = Some m)).
  { induction n as [|n (t & I & C & IP & RI & D)].
    - exists (Scope (Some m) None [] true). split; [constructor|]. split; [constructor|]. cbn. auto.
    - exists (new_scope (Some x) (Some t)). split.
      + eapply inc_step with (name := name); [exact I|]. unfold include_scope.
        assert (U : urls urljoin t name = [s_ "file:///a/x.ly"]).
        { unfold urls. rewrite IP, RI. cbn [fold_left].
          assert (R : document (root t) = Some m).
          { symmetry. apply root_fun. clear -C. revert C. generalize n. clear n. intros n C. remember ((repeat (Some x) n ++ [Some m])%list) as l eqn:E. revert n E.
            induction C as [d i r|d p l i r C IH]; intros n E.
            - destruct n as [|[|n]]; cbn in E; try discriminate. injection E as ->. constructor.
            - destruct n as [|n]; cbn in E; [injection E; intros; subst; inversion C|]. injection E as -> E. constructor. eauto. }
          rewrite R. pose proof (chain_fun _ _ C) as CF. rewrite <- CF.
          assert (NI : forall u, In u ((repeat (Some x) n ++ [Some m])%list) -> u = Some x \/ u = Some m).
          { intros u J. apply in_app_iff in J. destruct J as [J|[<-|[]]]; [left; eapply repeat_spec; exact J|auto]. }
          assert (Z : existsb (url_eqb (Some (s_ "file:///a/x.ly"))) ((repeat (Some x) n ++ [Some m])%list) = false).
          { destruct (existsb _ _) eqn:Z; [|reflexivity]. apply mem_url in Z. apply NI in Z. destruct Z as [Z|Z]; discriminate Z. }
          assert (A2 : forall l, existsb (str_eqb (s_ "file:///a/x.ly")) l = false ->
             add_url urljoin ((repeat (Some x) n ++ [Some m])%list) name l (Some m) = (l ++ [s_ "file:///a/x.ly"])%list).
          { intros l L. change (Some m) with (Some (s_ "file:///a/m.ly")) at 2. unfold add_url. cbn [s_ list_ascii_of_string].
            change (urljoin _ name) with (urljoin m name). rewrite J1, Z, L. reflexivity. }
          destruct D as [D|D]; rewrite D.
          - assert (A1 : add_url urljoin ((repeat (Some x) n ++ [Some m])%list) name [] (Some x) = []).
            { assert (XI : existsb (url_eqb (Some x)) ((repeat (Some x) n ++ [Some m])%list) = true).
              { apply mem_url. rewrite CF. left. exact D. }
              change (add_url urljoin ((repeat (Some x) n ++ [Some m])%list) name [] (Some x)) with
                (if existsb (url_eqb (Some (urljoin x name))) ((repeat (Some x) n ++ [Some m])%list)
                    || existsb (str_eqb (urljoin x name)) [] then [] else [urljoin x name]).
              rewrite J2, XI. reflexivity. }
            rewrite A1. apply A2. reflexivity.
          - rewrite (A2 [] eq_refl). cbn [app].
            change (add_url urljoin ((repeat (Some x) n ++ [Some m])%list) name [s_ "file:///a/x.ly"] (Some m)) with
                (if existsb (url_eqb (Some (urljoin m name))) ((repeat (Some x) n ++ [Some m])%list)
                    || existsb (str_eqb (urljoin m name)) [s_ "file:///a/x.ly"] then [s_ "file:///a/x.ly"] else [s_ "file:///a/x.ly"; urljoin m name]).
            rewrite J1, Z. reflexivity. }
        rewrite U. cbn [first_document]. unfold get_document. rewrite Pa, Fx. reflexivity.
      + split; [cbn; constructor; exact C|]. cbn. auto. }
  intros n. destruct (G n) as (t & I & C & _). eauto.
Qed.
Print Assumptions C59_file_url_finding.
