(** Property C137: the language and the first pitch follow the document. *)
From Coq Require Import String Ascii List ZArith Bool Lia.
From Verif Require Import Transpose_Model Transpose_Props.
From Verif Require Import Base Pitch_Model Pitch_Proofs Pitch_Lang Pitch_Props Version_Model Version_Spec Version_Props Relative_Model Settings_Model.
Import ListNotations.
Local Open Scope string_scope. Local Open Scope list_scope. Open Scope nat_scope.

(** ** Specification *)

(** The nodes that end before the node at the path, in document order. *)
Fixpoint earlier (root : el) (path : list nat) : list el :=
  match path with
  | [] => []
  | i :: p => match nth_error (kids_of root) i with
              | Some c => flat_map (fun k => k :: below k) (firstn i (kids_of root)) ++ earlier c p
              | None => []
              end
  end.
(** \language "l", or \include "l.ly" of one of the languages. *)
Inductive sets_language (known : list str) : el -> str -> Prop :=
| sets_language_command kids l : argument (E KLanguage kids) (Some l) -> l <> [] -> sets_language known (E KLanguage kids) l
| sets_include_command kids l : argument (E KInclude kids) (Some (l ++ txt ".ly")) -> In l known -> l <> [] -> sets_language known (E KInclude kids) l.
(** The language in force: the last one that was set, or else the given one. *)
Inductive in_force (known : list str) (nodes : list el) (default : str) : str -> Prop :=
| force_set before n after l : nodes = before ++ n :: after -> sets_language known n l ->
    (forall m k, In m after -> ~ sets_language known m k) -> in_force known nodes default l
| force_default : (forall m k, In m nodes -> ~ sets_language known m k) -> in_force known nodes default default.
(** No such command inside another one, and no \include without an argument. *)
Definition proper_commands (known : list str) (nodes : list el) : Prop :=
  forall n, In n nodes ->
    (forall l, sets_language known n l -> forall m k, In m (below n) -> ~ sets_language known m k) /\
    (kind_of n = KInclude -> exists f, argument n (Some f)).
(** A version is at least 2.18. *)
Definition at_least_2_18 (v : list Z) : Prop :=
  match v with
  | [] => False
  | [a] => (2 < a)%Z
  | a :: b :: _ => (2 < a)%Z \/ (a = 2 /\ 18 <= b)%Z
  end.

(** ** Proofs *)

Lemma mirrored_kids k l : mirrored (E k l) = to_the_left l.
Proof. reflexivity. Qed.
Lemma below_kids k l : below (E k l) = flat_map (fun k => k :: below k) l.
Proof. reflexivity. Qed.

Definition hit (T : tables) (n : el) : option str := match language_of T n with Ok (Some (c :: s)) => Some (c :: s) | _ => None end.
Lemma argument_of e o : argument e o -> first_string (kids_of e) = o.
Proof. destruct 1 as [k kids F|k a h l b F]; cbn [kids_of]; [exact (proj1 (first_none _ F))|exact (proj1 (first_some a h l b F))]. Qed.
Lemma argument_is e : argument e (first_string (kids_of e)).
Proof. exact (proj1 (C103_argument e)). Qed.

Lemma hit_sets T n l : (kind_of n = KInclude -> exists f, argument n (Some f)) -> (hit T n = Some l <-> sets_language (map fst T) n l).
Proof.
  intros INC. destruct n as [k kids]. unfold hit, language_of. cbn [kind_of].
  destruct k as [h| | | |id]; try (split; [discriminate|intros S; inversion S]).
  - unfold Version_Model.language. cbn [kids_of]. pose proof (argument_is (E KLanguage kids)) as A. cbn [kids_of] in A. split.
    + destruct (first_string kids) as [[|c s]|]; try discriminate. intros [= <-]. apply sets_language_command; [exact A|discriminate].
    + intros S. inversion S as [? ? A' NE|]; subst. apply argument_of in A'. cbn [kids_of] in A'. rewrite A'. destruct l; [contradiction|reflexivity].
  - destruct (INC eq_refl) as (f & A). split.
    + destruct (include_language (map fst T) (E KInclude kids)) as [[[|c s]|]|] eqn:R; try discriminate. intros [= <-].
      apply (C103_include_language_partial _ _ f) in R; [|exact A]. destruct R as [-> I]. apply sets_include_command; [exact A|exact I|discriminate].
    + intros S. inversion S as [|? ? A' I NE]; subst. rewrite (proj2 (C103_include_language_partial (map fst T) _ _ l A') (conj eq_refl I)).
      destruct l; [contradiction|reflexivity].
Qed.
Lemma language_of_ok T n : (kind_of n = KInclude -> exists f, argument n (Some f)) -> exists o, language_of T n = Ok o.
Proof.
  intros INC. destruct n as [k kids]. unfold language_of. cbn [kind_of]. destruct k as [h| | | |id]; eauto.
  destruct (INC eq_refl) as (f & A). unfold include_language, filename. rewrite (argument_of _ _ A). destruct (ends_ly f); eauto.
Qed.

Fixpoint first_hit (T : tables) (l : list el) : option str :=
  match l with [] => None | n :: r => match hit T n with Some s => Some s | None => first_hit T r end end.
Lemma first_hit_app T a b : first_hit T (a ++ b) = match first_hit T a with Some s => Some s | None => first_hit T b end.
Proof. induction a as [|x a IH]; cbn [app first_hit]; [reflexivity|]. destruct (hit T x); [reflexivity|exact IH]. Qed.
Lemma first_hit_none T l : (forall m, In m l -> hit T m = None) -> first_hit T l = None.
Proof. induction l as [|x l IH]; intros H; cbn [first_hit]; [reflexivity|]. rewrite (H x (or_introl eq_refl)). apply IH. intros m I. apply H. now right. Qed.

Lemma look_back_hit T P l : (forall n, In n l -> exists o, language_of T n = Ok o) ->
  look_back T P l = match first_hit T l with Some s => language_set T P s | None => Ok P end.
Proof.
  induction l as [|n r IH]; intros H; cbn [look_back first_hit]; [reflexivity|]. destruct (H n (or_introl eq_refl)) as [o E]. unfold hit. rewrite E. cbn [bindr].
  destruct o as [[|c s]|]; [|reflexivity|]; apply IH; intros m I; apply H; now right.
Qed.

(** The reversed walk finds the same first hit as the reversed document order. *)
Definition tidy (T : tables) (n : el) : Prop := hit T n <> None -> forall m, In m (below n) -> hit T m = None.
Lemma node_hit T n : tidy T n -> first_hit T (mirrored n) = first_hit T (rev (below n)) -> first_hit T (n :: mirrored n) = first_hit T (rev (n :: below n)).
Proof.
  intros TD M. cbn [first_hit rev]. rewrite first_hit_app. cbn [first_hit]. destruct (hit T n) as [s|] eqn:H.
  - rewrite (first_hit_none T (rev (below n))); [reflexivity|]. intros m I. apply TD; [congruence|now apply in_rev].
  - rewrite M. now destruct (first_hit T (rev (below n))).
Qed.
Lemma kids_hit T l : Forall (fun n => first_hit T (n :: mirrored n) = first_hit T (rev (n :: below n))) l ->
  first_hit T (to_the_left l) = first_hit T (rev (flat_map (fun k => k :: below k) l)).
Proof.
  induction 1 as [|n r H _ IH]; [reflexivity|]. change (to_the_left (n :: r)) with (to_the_left r ++ n :: mirrored n).
  change (flat_map (fun k => k :: below k) (n :: r)) with ((n :: below n) ++ flat_map (fun k => k :: below k) r).
  rewrite rev_app_distr, !first_hit_app, IH, H. reflexivity.
Qed.
Lemma mirrored_hit T n : (forall m, In m (below n) -> tidy T m) -> first_hit T (mirrored n) = first_hit T (rev (below n)).
Proof.
  induction n as [k l IH] using el_ind2. intros TD. rewrite mirrored_kids, below_kids in *. apply kids_hit. rewrite Forall_forall in *. intros n I.
  apply node_hit.
  - apply TD. apply in_flat_map. exists n. split; [exact I|now left].
  - apply (IH n I). intros m J. apply TD. apply in_flat_map. exists n. split; [exact I|now right].
Qed.
Lemma backward_hit T path : forall root, (forall m, In m (earlier root path) -> tidy T m) -> first_hit T (backward root path) = first_hit T (rev (earlier root path)).
Proof.
  induction path as [|i p IH]; intros root TD; cbn [backward earlier] in *; [reflexivity|]. destruct (nth_error (kids_of root) i) as [c|]; [|reflexivity].
  rewrite rev_app_distr, !first_hit_app, IH by (intros m I; apply TD; apply in_or_app; now right).
  rewrite kids_hit; [reflexivity|]. rewrite Forall_forall. intros n I.
  assert (J : forall m, In m (n :: below n) -> tidy T m) by (intros m J; apply TD; apply in_or_app; left; apply in_flat_map; eauto).
  apply node_hit; [apply J; now left|]. apply mirrored_hit. intros m K. apply J. now right.
Qed.
Lemma backward_in path : forall root n, In n (backward root path) <-> In n (earlier root path).
Proof.
  assert (M : forall e n, In n (mirrored e) <-> In n (below e)).
  { induction e as [k l IH] using el_ind2. intros n. rewrite mirrored_kids, below_kids. induction IH as [|x r H _ IHr]; [reflexivity|].
    change (to_the_left (x :: r)) with (to_the_left r ++ x :: mirrored x). change (flat_map (fun k => k :: below k) (x :: r)) with ((x :: below x) ++ flat_map (fun k => k :: below k) r).
    rewrite !in_app_iff. cbn [In]. rewrite IHr, H. tauto. }
  assert (L : forall l n, In n (to_the_left l) <-> In n (flat_map (fun k => k :: below k) l)).
  { induction l as [|x r IHr]; intros n; [reflexivity|].
    change (to_the_left (x :: r)) with (to_the_left r ++ x :: mirrored x). change (flat_map (fun k => k :: below k) (x :: r)) with ((x :: below x) ++ flat_map (fun k => k :: below k) r).
    rewrite !in_app_iff. cbn [In]. rewrite IHr, M. tauto. }
  induction path as [|i p IH]; intros root n; cbn [backward earlier]; [reflexivity|]. destruct (nth_error (kids_of root) i) as [c|]; [|reflexivity].
  rewrite !in_app_iff, IH, L. tauto.
Qed.

Lemma first_hit_force T nodes default : (forall n, In n nodes -> kind_of n = KInclude -> exists f, argument n (Some f)) ->
  forall l, in_force (map fst T) nodes default l ->
  first_hit T (rev nodes) = Some l \/ (first_hit T (rev nodes) = None /\ l = default).
Proof.
  intros INC l [before n after l' -> S N|N].
  - left. rewrite rev_app_distr. cbn [rev]. rewrite <- app_assoc. cbn [app]. rewrite first_hit_app. rewrite first_hit_none.
    + cbn [first_hit]. rewrite (proj2 (hit_sets T n l' (INC n ltac:(apply in_or_app; right; now left))) S). reflexivity.
    + intros m I. apply in_rev in I. destruct (hit T m) as [s|] eqn:H; [|reflexivity].
      apply (hit_sets T m s) in H; [destruct (N m s I H)|]. apply INC. apply in_or_app. right. now right.
  - right. split; [|reflexivity]. apply first_hit_none. intros m I. apply in_rev in I. destruct (hit T m) as [s|] eqn:H; [|reflexivity].
    apply (hit_sets T m s (INC m I)) in H. destruct (N m s I H).
Qed.

Lemma tuple_ge_2_18 v : tuple_ge v [2; 18]%Z = true <-> at_least_2_18 v.
Proof.
  destruct v as [|a [|b r]]; cbn [tuple_ge at_least_2_18]; [split; [discriminate|tauto]| |].
  - destruct (Z.eqb_spec a 2) as [->|N]; [split; [discriminate|lia]|]. rewrite Z.ltb_lt. tauto.
  - destruct (Z.eqb_spec a 2) as [->|N]; [|rewrite Z.ltb_lt; lia]. destruct (Z.eqb_spec b 18) as [->|M]; [split; [lia|now destruct r]|]. rewrite Z.ltb_lt. lia.
Qed.

(** ** Theorems *)

(** Editing a part of a document that is not the whole tree, the language is the one
    in force there; the other preferences are those of the given processor, or the default ones.
    Missing for the full claim: a selection of more than one toplevel expression, see
    C137_selection_finding. *)
Theorem C137_language_partial : forall T given root path l,
  let P := match given with Some P => P | None => default_processor end in
  path <> [] -> proper_commands (map fst T) (earlier root path) ->
  in_force (map fst T) (earlier root path) (Pitch_Model.language P) l -> In l (map fst T) ->
  exists P', get_processor T given root path = Ok P' /\ Pitch_Model.language P' = l /\ P' = Processor (prefer_long P) (prefer_accented P) (prefer_x P) (prefer_double_s P) (prefer_classic P) (prefer_deprecated P) l.
Proof.
  intros T given root path l P NE PC F K. unfold get_processor. fold P. destruct path as [|i p]; [contradiction|].
  rewrite look_back_hit by (intros n I; apply language_of_ok; apply backward_in in I; exact (proj2 (PC n I))).
  rewrite backward_hit.
  2:{ intros m I H n J. destruct (hit T n) as [s|] eqn:E; [|reflexivity]. exfalso. destruct (hit T m) as [s'|] eqn:E'; [|contradiction].
      apply (hit_sets T m s' (proj2 (PC m I))) in E'. apply (proj1 (PC m I) s' E' n s J).
      apply (hit_sets T n s); [|exact E]. intros KI. clear - PC I J KI.
      assert (B : forall e a b, In a (below e) -> In b (below a) -> In b (below e)).
      { induction e as [k kids IH] using el_ind2. intros a b A B. rewrite below_kids in *. apply in_flat_map in A. destruct A as (x & A & C). apply in_flat_map. exists x. split; [exact A|].
        destruct C as [->|C]; [now right|]. right. rewrite Forall_forall in IH. exact (IH x A a b C B). }
      assert (X : forall l a b, In a (flat_map (fun k => k :: below k) l) -> In b (below a) -> In b (flat_map (fun k => k :: below k) l)).
      { intros l a b A C. apply in_flat_map in A. destruct A as (x & A & D). apply in_flat_map. exists x. split; [exact A|]. right. destruct D as [->|D]; [exact C|exact (B x a b D C)]. }
      assert (Y : forall path0 root0 a b, In a (earlier root0 path0) -> In b (below a) -> In b (earlier root0 path0)).
      { induction path0 as [|j q IH]; intros r m' n' A C; cbn [earlier] in *; [destruct A|]. destruct (nth_error (kids_of r) j); [|destruct A].
        apply in_app_or in A. apply in_or_app. destruct A as [A|A]; [left; exact (X _ _ _ A C)|right; exact (IH _ _ _ A C)]. }
      exact (proj2 (PC n (Y _ _ _ _ I J)) KI). }
  destruct (first_hit_force T _ _ (fun n I => proj2 (PC n I)) l F) as [->|[-> ->]].
  - exists (Pitch_Model.set_language P l). unfold language_set. apply in_strs_iff in K. rewrite <- dget_some_iff in K. destruct (dget str_eqb T l); [|discriminate]. now destruct P.
  - exists P. split; [reflexivity|]. split; [reflexivity|]. now destruct P.
Qed.
Print Assumptions C137_language_partial.

(** The numbers in the first \version of a document; none if there is no \version. *)
Definition document_version (root : el) (v : list Z) : Prop :=
  (unversioned root /\ v = []) \/
  exists c root', first_version c c root root' /\ ((argument c None /\ v = []) \/ exists h, argument c (Some h) /\ numbers h v).

(** The first pitch in a \relative without start pitch is absolute if that was asked for, or else if the
    document is for LilyPond 2.18 or later. *)
Theorem C137_first_pitch : forall attr root,
  (forall b, attr = Some b -> first_absolute attr root = Ok b) /\
  (attr = None -> exists v b, document_version root v /\ first_absolute attr root = Ok b /\ (b = true <-> at_least_2_18 v)).
Proof.
  intros attr root. split; [intros b ->; reflexivity|]. intros ->. unfold first_absolute.
  destruct (C103_get_version root) as (N & S & D & E). destruct D as [U|(c & root' & F)].
  - exists [], false. split; [left; auto|]. rewrite E, (N U). cbn [bindr]. split; [reflexivity|]. cbn. split; [discriminate|tauto].
  - destruct (C103_version_command c) as (v & V & A). exists v, (tuple_ge v [2; 18]%Z). split; [right; exists c, root'; auto|].
    rewrite E, (S c root' F), V. cbn [bindr]. split; [reflexivity|apply tuple_ge_2_18].
Qed.
Print Assumptions C137_first_pitch.

(** Abs2rel uses the same settings; whether the first pitch is absolute does not matter to it if it writes
    a start pitch. *)
Theorem C137_settings : forall T given start_pitch attr root path P fa,
  get_processor T given root path = Ok P -> first_absolute attr root = Ok fa ->
  exists fa', get_settings T given start_pitch attr root path = Ok (P, fa') /\ (start_pitch = false -> fa' = fa).
Proof.
  intros T given sp attr root path P fa H F. unfold get_settings. rewrite H. destruct sp; cbn [bindr]; [eexists; split; [reflexivity|discriminate]|].
  rewrite F. cbn [bindr]. eauto.
Qed.
Print Assumptions C137_settings.

(** A \language command with an unknown name raises KeyError, here too. *)
Theorem C137_unknown_finding : forall T given l k, ~ In (txt l) (map fst T) -> l <> ""%string ->
  get_processor T given (E k [E KLanguage [E (KString (txt l)) []]; E (KOther 0) []]) [1] = Err KeyError.
Proof.
  intros T given l k N NE. unfold get_processor. cbn [backward kids_of nth_error firstn to_the_left app mirrored look_back]. unfold language_of. cbn [kind_of].
  unfold Version_Model.language. cbn [kids_of first_string bindr]. destruct l as [|c l]; [contradiction|]. cbn [txt list_ascii_of_string] in *. unfold language_set.
  now rewrite (dget_none T _ N).
Qed.
Print Assumptions C137_unknown_finding.

(** Finding: if the selection spans toplevel expressions, their common ancestor is the document itself and the
    language commands before the selection are not looked for.  Rel2abs only follows those in the
    selection, so English names are read as Dutch ones. *)
Theorem C137_selection_finding :
  (forall T given root, get_processor T given root [] = Ok (match given with Some P => P | None => default_processor end)) /\
  let note h := INote (PNode (txt h) None None) in
  let music := DRel true (Some (PNode (txt "c") (Some 1%Z) None)) (IList [note "cs"; note "d"]) in
  let fine := DRel true (Some (PNode (txt "c") (Some 1%Z) None)) (IList [note "c"; note "d"]) in
  (exists t, rel2abs ex_T default_processor true [DLang (txt "english"); music; fine] = Ok t) /\
  rel2abs ex_T default_processor true [music; fine] = Err KeyError.
Proof. split; [reflexivity|]. cbv zeta. split; [eexists|]; vm_compute; reflexivity. Qed.
Print Assumptions C137_selection_finding.

(** Finding: a processor that was given keeps the language of the first document, and uses it for the next one. *)
Theorem C137_reuse_finding :
  let first := E (KOther 0) [E KLanguage [E (KString (txt "english")) []]; E (KOther 1) []] in
  let second := E (KOther 0) [E (KOther 2) []; E (KOther 1) []] in
  exists P, get_processor ex_T (Some default_processor) first [1] = Ok P /\ Pitch_Model.language P = txt "english" /\
    (exists P', get_processor ex_T (Some P) second [1] = Ok P' /\ Pitch_Model.language P' = txt "english") /\
    in_force (map fst ex_T) (earlier second [1]) (Pitch_Model.language default_processor) (txt "nederlands").
Proof.
  cbv zeta. eexists. split; [vm_compute; reflexivity|]. split; [reflexivity|]. split; [eexists; split; [vm_compute; reflexivity|reflexivity]|].
  apply force_default. intros m k [<-|[]] S. inversion S.
Qed.
Print Assumptions C137_reuse_finding.

(** \version "2.24.0" \include "english.ly" \language "" { ... } with the selection in the last node. *)
Definition st_doc : el :=
  E (KOther 0) [E KVersion [E (KString (txt "2.24.0")) []]; E KInclude [E (KString (txt "english.ly")) []]; E KLanguage [E (KString []) []]; E (KOther 1) [E (KOther 2) []; E (KOther 3) []]].
Example C137_witness :
  proper_commands (map fst ex_T) (earlier st_doc [3; 1]) /\ in_force (map fst ex_T) (earlier st_doc [3; 1]) (txt "nederlands") (txt "english") /\ In (txt "english") (map fst ex_T) /\
  get_settings ex_T None false None st_doc [3; 1] = Ok (Pitch_Model.set_language default_processor (txt "english"), true) /\ document_version st_doc [2; 24; 0]%Z.
Proof.
  assert (A : forall k h, argument (E k [E (KString h) []]) (Some h)) by (intros k h; apply (argument_first k [] h [] []); constructor).
  assert (NL : forall k : str, ~ sets_language (map fst ex_T) (E KLanguage [E (KString []) []]) k).
  { intros k S. inversion S as [? ? B NE|]; subst. apply argument_of in B. cbn in B. injection B as <-. contradiction. }
  assert (NO : forall x kids (k : str), ~ sets_language (map fst ex_T) (E (KOther x) kids) k) by (intros x kids k S; inversion S).
  assert (NS : forall x kids (k : str), ~ sets_language (map fst ex_T) (E (KString x) kids) k) by (intros x kids k S; inversion S).
  assert (EN : In (txt "english") (map fst ex_T)) by (apply in_strs_iff; vm_compute; reflexivity).
  split; [|split; [|split; [exact EN|split; [vm_compute; reflexivity|]]]].
  - intros n I. cbn in I. repeat destruct I as [<-|I]; try destruct I; (split; [intros l S m k J; cbn in J; repeat destruct J as [<-|J]; try destruct J; auto|]); intros KI; try discriminate KI; eauto.
  - apply (force_set _ _ _ [E KVersion [E (KString (txt "2.24.0")) []]; E (KString (txt "2.24.0")) []] (E KInclude [E (KString (txt "english.ly")) []])
      [E (KString (txt "english.ly")) []; E KLanguage [E (KString []) []]; E (KString []) []; E (KOther 2) []]); [reflexivity| |].
    + apply sets_include_command; [apply A|exact EN|discriminate].
    + intros m k I. repeat destruct I as [<-|I]; try destruct I; auto.
  - destruct (C137_first_pitch None st_doc) as [_ F]. destruct (F eq_refl) as (v & b & D & _ & _).
    assert (V : forall v, document_version st_doc v -> version st_doc = Ok v).
    { intros w [(U & ->)|(c & r' & FV & B)]; [exact (proj1 (C103_get_version st_doc) U)|]. rewrite (proj1 (proj2 (C103_get_version st_doc)) c r' FV).
      unfold version_of. destruct B as [(B & ->)|(h & B & N)]; rewrite (argument_of _ _ B); [reflexivity|now apply numbers_found]. }
    pose proof (V v D) as E. vm_compute in E. injection E as <-. exact D.
Qed.
