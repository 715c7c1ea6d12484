(** The version, the language and included files: the property C103. *)
From Coq Require Import String Ascii List ZArith NArith Bool Lia ZifyBool ZifyNat.
From Verif Require Import Base Duration_Model Duration_Spec Duration_Text Heads_Model Heads_Props Version_Model Version_Spec.
Import ListNotations.
Local Open Scope string_scope.
Local Open Scope list_scope.
Open Scope nat_scope.

Section Ind.
Variable Q : el -> Prop.
Hypothesis H : forall k l, Forall Q l -> Q (E k l).
Fixpoint el_ind2 (e : el) : Q e :=
  match e with
  | E k l => H k l ((fix all (l : list el) : Forall Q l := match l with [] => Forall_nil _ | x :: r => Forall_cons _ (el_ind2 x) (all r) end) l)
  end.
End Ind.

Notation no_string := (fun x : el => forall h l, x <> E (KString h) l).

(** ** The argument of a command *)
Lemma string_or : forall x, (exists h l, x = E (KString h) l) \/ no_string x.
Proof. intros [[h| | | |i] l]; [left; eauto|right; discriminate..]. Qed.
Lemma strings_split : forall l, Forall no_string l \/ exists a h k b, l = a ++ E (KString h) k :: b /\ Forall no_string a.
Proof.
  induction l as [|x l IH]; [left; constructor|]. destruct (string_or x) as [(h & k & ->)|N]; [right; exists [], h, k, l; auto|].
  destruct IH as [F|(a & h & k & b & -> & F)]; [left; constructor; auto|right]. exists (x :: a), h, k, b. split; [reflexivity|constructor; auto].
Qed.
Lemma first_none : forall l, Forall no_string l -> first_string l = None /\ forall h, replace_string h l = None.
Proof.
  induction l as [|x l IH]; intros F; [auto|]. inversion F as [|? ? A F']; subst. destruct (IH F') as [E1 E2]. destruct x as [[h| | | |i] k]; [destruct (A h k eq_refl)| | | |]; cbn; (split; [exact E1|intros h; rewrite E2; reflexivity]).
Qed.
Lemma first_some : forall a h k b, Forall no_string a -> first_string (a ++ E (KString h) k :: b) = Some h /\
  forall h', replace_string h' (a ++ E (KString h) k :: b) = Some (a ++ E (KString h') k :: b).
Proof.
  induction a as [|x a IH]; intros h k b F; [split; reflexivity|]. inversion F as [|? ? A F']; subst. destruct (IH h k b F') as [E1 E2]. destruct x as [[g| | | |i] l]; [destruct (A g l eq_refl)| | | |]; cbn [app first_string replace_string]; (split; [exact E1|intros h'; rewrite E2; reflexivity]).
Qed.

(** The getters give the argument; the setters give the command that argument. *)
Theorem C103_argument : forall e, argument e (language e) /\ argument e (filename e).
Proof.
  assert (X : forall e, argument e (first_string (kids_of e))).
  { intros [k l]. cbn [kids_of]. destruct (strings_split l) as [F|(a & h & l0 & b & -> & F)].
    - rewrite (proj1 (first_none l F)). now constructor.
    - rewrite (proj1 (first_some a h l0 b F)). now constructor. }
  intros e. split; apply X.
Qed.
Lemma set_string_given : forall h e, given h e (set_string h e).
Proof.
  intros h [k l]. unfold set_string. cbn [kids_of kind_of]. destruct (strings_split l) as [F|(a & h' & l0 & b & -> & F)].
  - rewrite (proj2 (first_none l F)). now constructor.
  - rewrite (proj2 (first_some a h' l0 b F)). now constructor.
Qed.
Lemma given_first : forall h e e', given h e e' -> first_string (kids_of e') = Some h /\ kind_of e' = kind_of e.
Proof. intros h e e' G. destruct G; cbn [kids_of kind_of]; (split; [|reflexivity]); [now apply first_some|reflexivity]. Qed.
Theorem C103_set_argument : forall h e, given h e (set_language h e) /\ language (set_language h e) = Some h /\ given h e (set_filename h e) /\ filename (set_filename h e) = Some h.
Proof.
  intros h e. pose proof (set_string_given h e) as G. destruct (given_first _ _ _ G) as [A _]. repeat split; assumption.
Qed.

(** ** Version numbers *)
Lemma digit_is : forall c, digit c = true <-> is_digit c.
Proof. intros c. unfold digit, is_digit. lia. Qed.
Lemma digit_not : forall c, digit c = false <-> ~ is_digit c.
Proof. intros c. rewrite <- digit_is. destruct (digit c); split; congruence. Qed.


Lemma findall_run : forall run cur rest, Forall is_digit run -> findall cur (run ++ rest) = findall (List.rev run ++ cur) rest.
Proof.
  induction run as [|c run IH]; intros cur rest F; [reflexivity|]. inversion F as [|? ? A F']; subst. cbn [app findall]. rewrite (proj2 (digit_is c) A), IH by exact F'. cbn [List.rev]. now rewrite <- app_assoc.
Qed.
Lemma findall_before : forall before rest, Forall (fun c => ~ is_digit c) before -> findall [] (before ++ rest) = findall [] rest.
Proof.
  induction before as [|c l IH]; intros rest F; [reflexivity|]. inversion F as [|? ? A F']; subst. cbn [app findall]. rewrite (proj2 (digit_not c) A). cbn [app]. now apply IH.
Qed.
Lemma findall_flush : forall cur rest, cur <> [] -> (forall c, hd_error rest = Some c -> ~ is_digit c) -> findall cur rest = List.rev cur :: findall [] rest.
Proof.
  intros cur rest N H. destruct cur as [|d cur]; [congruence|]. destruct rest as [|c r]; [reflexivity|]. cbn [findall]. rewrite (proj2 (digit_not c) (H c eq_refl)). reflexivity.
Qed.
Lemma numbers_found : forall s l, numbers s l -> mapr py_int (findall [] s) = Ok l.
Proof.
  intros s l N. induction N as [s F|before run rest l F NE D H N IH].
  - rewrite <- (app_nil_r s), findall_before by exact F. reflexivity.
  - rewrite findall_before, findall_run by assumption. rewrite app_nil_r, findall_flush; [|intros X; apply NE; rewrite <- (rev_involutive run), X; reflexivity|exact H].
    rewrite rev_involutive. cbn [mapr]. rewrite py_int_value by assumption. cbn [bindr]. rewrite IH. reflexivity.
Qed.
Lemma span : forall (P : ascii -> Prop) (d : forall c, {P c} + {~ P c}) (s : str), exists a b, s = a ++ b /\ Forall P a /\ forall c, hd_error b = Some c -> ~ P c.
Proof.
  intros P d. induction s as [|c s (a & b & -> & F & H)]; [exists [], []; repeat split; [constructor|discriminate]|].
  destruct (d c) as [Y|N]; [exists (c :: a), b; repeat split; auto|]. exists [], (c :: a ++ b). repeat split; [constructor|]. intros x X. injection X as <-. exact N.
Qed.
Lemma digit_dec : forall c, {is_digit c} + {~ is_digit c}.
Proof. intros c. destruct (digit c) eqn:D; [left; now apply digit_is|right; now apply digit_not]. Qed.
Lemma nondigit_dec : forall c, {~ is_digit c} + {~ ~ is_digit c}.
Proof. intros c. destruct (digit_dec c); [right|left]; tauto. Qed.
Lemma numbers_exist : forall n s, List.length s <= n -> exists l, numbers s l.
Proof.
  induction n as [|n IH]; intros s L; [destruct s; [exists []; do 2 constructor|cbn in L; lia]|].
  destruct (span _ nondigit_dec s) as (a & b & -> & F & H). destruct b as [|c b]; [exists []; rewrite app_nil_r; now constructor|].
  destruct (span _ digit_dec (c :: b)) as (run & rest & E & D & H'). destruct run as [|r run]; [cbn in E; destruct (H c eq_refl); apply H'; now rewrite <- E|].
  rewrite E in *. destruct (IH rest) as [l N]; [rewrite !app_length in L; cbn in L; lia|]. eexists. eapply numbers_more; eauto. discriminate.
Qed.

(** The version of a [\version] command: the numbers in its argument, and none without an argument; reading it never fails. *)
Theorem C103_version_command : forall e, exists l, version_of e = Ok l /\ ((argument e None /\ l = []) \/ (exists h, argument e (Some h) /\ numbers h l)).
Proof.
  intros e. pose proof (proj1 (C103_argument e)) as A. unfold language in A. unfold version_of. destruct (first_string (kids_of e)) as [h|]; [|exists []; auto].
  destruct (numbers_exist _ h (le_n _)) as [l N]. exists l. split; [now apply numbers_found|]. right. eauto.
Qed.
Print Assumptions C103_version_command.

Lemma joined : forall v, numbers (join "." (map dec v)) (map Z.of_N v).
Proof.
  induction v as [|n v IH]; [do 2 constructor|]. cbn [map join]. rewrite <- (dec_value n). pose proof (dec_nonempty n) as NE. pose proof (dec_digits n) as D.
  destruct v as [|m v].
  - cbn [map]. rewrite <- (app_nil_r (dec n)) at 1. apply (numbers_more [] (dec n) [] [] (Forall_nil _) NE D); [discriminate|do 2 constructor].
  - change (map Z.of_N (m :: v)) with (Z.of_N m :: map Z.of_N v) in *. change (map dec (m :: v)) with (dec m :: map dec v) in *. cbv iota.
    apply (numbers_more [] (dec n) _ _ (Forall_nil _) NE D); [intros c X; cbn in X; injection X as <-; unfold is_digit; cbn; lia|].
    change (dec m :: map dec v) with (map dec (m :: v)) in *. remember (join "." (map dec (m :: v))) as text eqn:T.
    inversion IH as [? F|before run rest l F N' D' H' N E1 E2]. apply (numbers_more ("."%char :: before)); auto. constructor; [unfold is_digit; cbn; lia|exact F].
Qed.
Lemma joined_dotted : forall v, dotted v (join "." (map dec v)).
Proof.
  assert (D : forall n, decimals n (dec n)).
  { intros n. destruct (N.eq_dec n 0) as [->|NZ]; [left; split; reflexivity|right]. split; [lia|]. split; [apply dec_digits|]. split; [apply dec_value|apply dec_head; lia]. }
  induction v as [|n [|m v] IH]; [exact dotted_none|apply (dotted_one n (dec n)), D|]. apply (dotted_more n (dec n) m v _ (D n) IH).
Qed.
Theorem C103_set_version_command : forall v e, version_of (set_version_of v e) = Ok (map Z.of_N v) /\ exists h, dotted v h /\ given h e (set_version_of v e).
Proof.
  intros v e. unfold set_version_of. pose proof (set_string_given (join "." (map dec v)) e) as G. split; [|exists (join "." (map dec v)); split; [apply joined_dotted|exact G]].
  unfold version_of. rewrite (proj1 (given_first _ _ _ G)). apply numbers_found, joined.
Qed.
Print Assumptions C103_set_version_command.

(** ** Documents *)
Notation clear := (fun x : el => kind_of x <> KVersion /\ unversioned x).
Lemma is_version_true : forall e, is_version e = true <-> kind_of e = KVersion.
Proof. intros [[ | | | | ] l]; cbn; split; congruence. Qed.
Lemma is_version_false : forall e, is_version e = false <-> kind_of e <> KVersion.
Proof. intros [[ | | | | ] l]; cbn; split; congruence. Qed.

Fixpoint change_all (f : el -> el) (l : list el) : option (list el) :=
  match l with
  | [] => None
  | x :: r => if is_version x then Some (f x :: r)
              else match change f x with Some x' => Some (x' :: r) | None => option_map (cons x) (change_all f r) end
  end.
Lemma change_E : forall f k l, change f (E k l) = option_map (E k) (change_all f l).
Proof. intros f k l. cbn [change]. apply f_equal. induction l as [|x r IH]; [reflexivity|]. cbn [change_all]. rewrite IH. reflexivity. Qed.
Lemma below_E : forall k l, below (E k l) = flat_map (fun x => x :: below x) l.
Proof. reflexivity. Qed.

Lemma find_app : forall {A} (p : A -> bool) a b, find p (a ++ b) = match find p a with Some x => Some x | None => find p b end.
Proof. intros A p a b. induction a as [|x a IH]; [reflexivity|]. cbn. destruct (p x); auto. Qed.

(** An element has no Version below it, or a first one. *)
Lemma cases : forall e,
  (unversioned e /\ find is_version (below e) = None /\ forall f, change f e = None) \/
  (exists v, find is_version (below e) = Some v /\ forall f, exists e', change f e = Some e' /\ first_version v (f v) e e' /\
     (kind_of (f v) = KVersion -> find is_version (below e') = Some (f v))).
Proof.
  apply el_ind2. intros k l H.
  assert (X : (Forall clear l /\ find is_version (flat_map (fun x => x :: below x) l) = None /\ forall f, change_all f l = None) \/
    (exists v, find is_version (flat_map (fun x => x :: below x) l) = Some v /\ forall f, exists l', change_all f l = Some l' /\
      (forall pre, Forall clear pre -> first_version v (f v) (E k (pre ++ l)) (E k (pre ++ l'))) /\
      (kind_of (f v) = KVersion -> find is_version (flat_map (fun x => x :: below x) l') = Some (f v)))).
  { induction H as [|x r Hx Hr IH]; [left; repeat split; constructor|].
    cbn [flat_map change_all app find]. destruct (is_version x) eqn:V.
    - right. exists x. split; [reflexivity|]. intros f. exists (f x :: r). split; [reflexivity|]. split.
      + intros pre P. apply first_here; [exact P|now apply is_version_true].
      + intros K. apply is_version_true in K. cbn [flat_map app find]. now rewrite K.
    - pose proof (proj1 (is_version_false x) V) as NV. rewrite find_app. destruct Hx as [(U & E1 & E2)|(v & E1 & E2)]; rewrite E1.
      + destruct IH as [(F & E3 & E4)|(v & E3 & E4)].
        * left. split; [constructor; auto|]. split; [exact E3|]. intros f. now rewrite E2, E4.
        * right. exists v. split; [exact E3|]. intros f. destruct (E4 f) as (l' & C & P & K). exists (x :: l'). rewrite E2, C. split; [reflexivity|]. split.
          -- intros pre Q. specialize (P (pre ++ [x])). rewrite <- !app_assoc in P. apply P. apply Forall_app. split; [exact Q|]. constructor; auto.
          -- intros KV. cbn [flat_map app find]. rewrite V, find_app, E1. now apply K.
      + right. exists v. split; [reflexivity|]. intros f. destruct (E2 f) as (x' & C & P & K). exists (x' :: r). rewrite C. split; [reflexivity|]. split.
        * intros pre Q. now apply first_below.
        * intros KV. cbn [flat_map app find]. assert (KX : kind_of x' = kind_of x) by (destruct P; reflexivity). rewrite (proj2 (is_version_false x')) by now rewrite KX. rewrite find_app, (K KV). reflexivity. }
  destruct X as [(F & E1 & E2)|(v & E1 & E2)].
  - left. split; [now constructor|]. split; [exact E1|]. intros f. now rewrite change_E, E2.
  - right. exists v. split; [exact E1|]. intros f. destruct (E2 f) as (l' & C & P & K). exists (E k l'). rewrite change_E, C. split; [reflexivity|]. split; [exact (P [] (Forall_nil _))|exact K].
Qed.

Lemma first_version_unique : forall e v e1 w e2 w', first_version v w e e1 -> first_version w' w' e e2 -> v = w'.
Proof.
  intros e v e1 w e2 w' P. revert e2 w'.
  assert (N : forall u u' x x', first_version u u' x x' -> ~ unversioned x).
  { intros u u' x x' Q. induction Q as [? a ? ? ? F K|? a x0 ? ? ? ? F K Q IH]; intros U; inversion U as [? ? G]; subst; apply Forall_app in G; destruct G as [_ G]; inversion G as [|? ? [G1 G2] _]; subst; [exact (G1 K)|exact (IH G2)]. }
  assert (S2 : forall (a a' : list el) x x' b b', a ++ x :: b = a' ++ x' :: b' -> Forall clear a -> Forall clear a' -> ~ clear x -> ~ clear x' -> x = x').
  { induction a as [|y a IH]; intros a' x x' b b' Q F F' C C'; destruct a' as [|y' a']; cbn in Q; injection Q as Q1 Q2; subst.
    - reflexivity.
    - inversion F'; subst; contradiction.
    - inversion F; subst; contradiction.
    - inversion F; inversion F'; subst. eapply IH; eauto. }
  induction P as [k a v w b F K|k a x x' v w b F K P IH]; intros e2 w' Q; inversion Q as [? a' ? ? b' F' K' Q1|? a' y y' ? ? b' F' K' P' Q1]; subst.
  - symmetry. eapply S2; eauto; intros [X _]; contradiction.
  - assert (y = v) by (eapply S2; [eassumption|auto|auto| |]; [intros [_ X]; exact (N _ _ _ _ P' X)|intros [X _]; contradiction]). subst. contradiction.
  - assert (w' = x) by (eapply S2; [eassumption|auto|auto| |]; [intros [X _]; contradiction|intros [_ X]; exact (N _ _ _ _ P X)]). subst. contradiction.
  - assert (y = x) by (eapply S2; [eassumption|auto|auto| |]; [intros [_ X]; exact (N _ _ _ _ P' X)|intros [_ X]; exact (N _ _ _ _ P X)]). subst. eapply IH; eauto.
Qed.

(** The version of a document: that of its first [\version] in document order, wherever it is; none without one.
    From every node lilypond_version() gives the same, for the root of its tree. *)
Theorem C103_get_version : forall doc,
  (unversioned doc -> version doc = Ok []) /\
  (forall v doc', first_version v v doc doc' -> version doc = version_of v) /\
  (unversioned doc \/ exists v doc', first_version v v doc doc') /\
  lilypond_version doc = version doc.
Proof.
  intros doc. assert (N : forall u u' x x', first_version u u' x x' -> ~ unversioned x).
  { intros u u' x x' Q. induction Q as [? a ? ? ? F K|? a x0 ? ? ? ? F K Q IH]; intros U; inversion U as [? ? G]; subst; apply Forall_app in G; destruct G as [_ G]; inversion G as [|? ? [G1 G2] _]; subst; [exact (G1 K)|exact (IH G2)]. }
  unfold version. destruct (cases doc) as [(U & E1 & _)|(v & E1 & E2)]; rewrite E1; destruct (E2 id) as (e' & C & P & _) || idtac.
  - split; [auto|]. split; [intros v doc' P; destruct (N _ _ _ _ P U)|]. split; [auto|]. unfold lilypond_version, version. now rewrite E1.
  - split; [intros U; destruct (N _ _ _ _ P U)|]. split; [|split; [right; exists v, e'; exact P|unfold lilypond_version, version; rewrite E1; reflexivity]].
    intros w doc' Q. now rewrite (first_version_unique _ _ _ _ _ _ P Q).
Qed.
Print Assumptions C103_get_version.

(** Setting it: it then is the version; only the argument of the first [\version] has changed, or a [\version] has been added at the start. *)
Theorem C103_set_version : forall v doc,
  version (set_version v doc) = Ok (map Z.of_N v) /\
  exists h, dotted v h /\
  ((exists c c', given h c c' /\ first_version c c' doc (set_version v doc)) \/
   (unversioned doc /\ set_version v doc = E (kind_of doc) (E KVersion [E (KString h) []] :: kids_of doc))).
Proof.
  intros v doc. unfold set_version. destruct (cases doc) as [(U & E1 & E2)|(c & E1 & E2)].
  - rewrite E2. split; [|exists (join "." (map dec v)); split; [apply joined_dotted|right; split; [exact U|reflexivity]]].
    unfold version. rewrite below_E. cbn [flat_map app find]. change (is_version (set_version_of v (E KVersion []))) with true. cbv iota. apply C103_set_version_command.
  - destruct (E2 (set_version_of v)) as (e' & C & P & K). rewrite C. destruct (C103_set_version_command v c) as [R (h & N & G)].
    split; [|exists h; split; [exact N|left; exists c, (set_version_of v c); auto]].
    assert (KC : kind_of c = KVersion) by (apply find_some in E1; now apply is_version_true).
    unfold version. rewrite K; [exact R|]. now rewrite (proj2 (given_first _ _ _ G)).
Qed.
Print Assumptions C103_set_version.

(** ** The language of an included file *)
Lemma ends_ly_ok : forall s, ends_ly s = true <-> exists l, s = l ++ txt ".ly".
Proof.
  intros s. unfold ends_ly. destruct (list_eq_dec ascii_dec (skipn (List.length s - 3) s) (txt ".ly")) as [Y|N]; split; intros H; try reflexivity; try discriminate.
  - exists (firstn (List.length s - 3) s). rewrite <- Y. symmetry. apply firstn_skipn.
  - destruct H as [l ->]. destruct N. rewrite app_length. change (List.length (txt ".ly")) with 3. replace (List.length l + 3 - 3) with (List.length l) by lia. rewrite skipn_app, skipn_all, Nat.sub_diag. reflexivity.
Qed.
(** It is [l] if and only if the file name is [l] with ".ly" and [l] is a known language.
    Missing for the full claim: an [\include] without an argument has no language either, but asking for it is an error (C103_include_finding). *)
Theorem C103_include_language_partial : forall known e f l, argument e (Some f) -> include_language known e = Ok (Some l) <-> (f = l ++ txt ".ly" /\ In l known).
Proof.
  intros known e f l A. assert (FN : filename e = Some f) by (inversion A; subst; now apply first_some). unfold include_language. rewrite FN.
  destruct (ends_ly f) eqn:L.
  - apply ends_ly_ok in L. destruct L as [l' ->]. rewrite app_length. change (List.length (txt ".ly")) with 3. replace (List.length l' + 3 - 3) with (List.length l') by lia.
    rewrite firstn_app, firstn_all, Nat.sub_diag. cbn [firstn]. rewrite app_nil_r. destruct (in_dec _ l' known) as [I|NI]; split; intros H.
    + injection H as <-. auto.
    + destruct H as [H _]. apply app_inv_tail in H. now subst.
    + discriminate.
    + destruct H as [H I]. apply app_inv_tail in H. subst. contradiction.
  - split; [discriminate|]. intros [-> _]. assert (ends_ly (l ++ txt ".ly") = true) by (apply ends_ly_ok; eauto). congruence.
Qed.
Theorem C103_include_none : forall known e f, argument e (Some f) -> (forall l, In l known -> f <> l ++ txt ".ly") -> include_language known e = Ok None.
Proof.
  intros known e f A N. destruct (include_language known e) as [[l|]|x] eqn:R; [|reflexivity|].
  - apply (C103_include_language_partial known e f l A) in R. destruct R as [-> I]. destruct (N l I eq_refl).
  - exfalso. assert (FN : filename e = Some f) by (inversion A; subst; now apply first_some). unfold include_language in R. rewrite FN in R. destruct (ends_ly f); discriminate.
Qed.
Theorem C103_set_include_language : forall known l e, given (l ++ txt ".ly") e (set_include_language l e) /\
  include_language known (set_include_language l e) = Ok (if in_dec (list_eq_dec ascii_dec) l known then Some l else None).
Proof.
  intros known l e. destruct (C103_set_argument (l ++ txt ".ly") e) as (_ & _ & G & FN). split; [exact G|].
  pose proof (proj2 (C103_argument (set_include_language l e))) as A. unfold set_include_language in *. rewrite FN in A.
  destruct (in_dec _ l known) as [I|NI].
  - apply (C103_include_language_partial known _ _ l A). auto.
  - apply (C103_include_none known _ _ A). intros l' I X. apply app_inv_tail in X. now subst.
Qed.
(** The language of an [\include] without an argument cannot be asked for: an AttributeError instead of None. *)
Theorem C103_include_finding : forall known e, argument e None -> filename e = None /\ include_language known e = Err AttributeError.
Proof.
  intros known e A. assert (FN : filename e = None) by (inversion A; subst; now apply first_none). split; [exact FN|]. unfold include_language. now rewrite FN.
Qed.
Print Assumptions C103_include_language_partial.
Print Assumptions C103_include_none.
Print Assumptions C103_set_include_language.
Print Assumptions C103_include_finding.
Print Assumptions C103_argument.
Print Assumptions C103_set_argument.

(** ** A document with a [\version] inside a block, after another command *)
Definition doc : el := E (KOther 0) [E KLanguage [E (KString (txt "english")) []]; E (KOther 1) [E KVersion [E (KOther 2) []; E (KString (txt "2.24.0")) []]]; E KVersion []].
Example C103_witness :
  version doc = Ok [2%Z; 24%Z; 0%Z] /\
  set_version [2%N; 25%N; 10%N] doc = E (KOther 0) [E KLanguage [E (KString (txt "english")) []]; E (KOther 1) [E KVersion [E (KOther 2) []; E (KString (txt "2.25.10")) []]]; E KVersion []] /\
  version (E (KOther 0) []) = Ok [] /\
  include_language [txt "deutsch"] (E KInclude [E (KString (txt "deutsch.ly")) []]) = Ok (Some (txt "deutsch")).
Proof. repeat split; vm_compute; reflexivity. Qed.
