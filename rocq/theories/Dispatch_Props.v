(** Property C114: tokens become the elements of their commands and keep their text. *)
From Coq Require Import String Ascii List ZArith Bool Lia.
From Verif Require Import Base Build_Model Grob_Model Heads_Model Signature_Model Signature_Proofs Grob_Spec Dispatch_Model Dispatch_Spec.
Import ListNotations.
Local Open Scope string_scope.
Local Open Scope list_scope.
Local Open Scope nat_scope.

Lemma str_eq_true : forall a b, str_eq a b = true <-> a = b.
Proof. intros a b. unfold str_eq. destruct (list_eq_dec ascii_dec a b); split; intros; try discriminate; auto; contradiction. Qed.
Lemma action_eqb_true : forall a b, action_eqb a b = true <-> a = b.
Proof. intros a b. unfold action_eqb. destruct (list_eq_dec string_dec a b); split; intros; try discriminate; auto; contradiction. Qed.

Lemma dict_find_in : forall {K V} (eqb : K -> K -> bool) (E : forall a b, eqb a b = true -> a = b) (d : list (K * V)) k v,
  dict_find eqb d k = Some v -> In (k, v) d.
Proof.
  intros K V eqb E d k v. induction d as [|[j w] d IH]; [discriminate|]. cbn [dict_find]. destruct (eqb j k) eqn:Q; intros H.
  - injection H as <-. apply E in Q. subst. left. reflexivity.
  - right. auto.
Qed.

Definition keys : list action := Eval vm_compute in map fst action_methods.
Lemma keys_in : forall a m, dict_find action_eqb action_methods a = Some m -> In a keys.
Proof.
  intros a m H. apply dict_find_in in H; [|intros x y; apply action_eqb_true]. apply (in_map fst) in H. cbn [fst] in H. exact H.
Qed.

Lemma find_sub : forall p m sub, p <> [] -> dict_find action_eqb action_methods p = Some m ->
  (forall s t, s <> [] -> sub = s ++ t -> ~ In (p ++ s) keys) ->
  find_method (iteration (length (p ++ sub)) (p ++ sub)) = Some m.
Proof.
  intros p m sub NE F. induction sub as [|x sub IH] using rev_ind; intros H.
  - rewrite app_nil_r. destruct p as [|y p]; [contradiction|]. cbn [length iteration find_method]. rewrite F. reflexivity.
  - rewrite app_assoc, app_length. cbn [length]. rewrite Nat.add_1_r.
    assert (I : iteration (S (length (p ++ sub))) ((p ++ sub) ++ [x]) = ((p ++ sub) ++ [x]) :: iteration (length (p ++ sub)) (p ++ sub)).
    { cbn [iteration]. destruct ((p ++ sub) ++ [x]) eqn:Q; [destruct (p ++ sub); discriminate|]. rewrite <- Q, removelast_last. reflexivity. }
    rewrite I. cbn [find_method]. destruct (dict_find action_eqb action_methods ((p ++ sub) ++ [x])) as [m'|] eqn:D.
    + exfalso. apply keys_in in D. rewrite <- app_assoc in D. apply (H (sub ++ [x]) []) in D; [exact D|destruct sub; discriminate|rewrite app_nil_r; reflexivity].
    + apply IH. intros s t Ns ->. apply (H s (t ++ [x]) Ns). rewrite app_assoc. reflexivity.
Qed.

(** In the keys, only [key] can be a proper extension. *)
Ltac extensions := intros s t Ns Es I; unfold keys in I; cbn [app] in I;
  repeat (destruct I as [I|I]; [try discriminate I; injection I; intros; subst; try contradiction; try congruence|]); try contradiction.

Lemma method_articulation : forall sub, find_method (iteration (length (["Name"; "Script"; "Articulation"] ++ sub)) (["Name"; "Script"; "Articulation"] ++ sub)) = Some (looked_up_or articulations_mapping KArticulation).
Proof. intros sub. apply find_sub; [discriminate|reflexivity|]. extensions. Qed.
Lemma method_lyric : forall sub, find_method (iteration (length (["Text"; "Lyric"; "LyricText"] ++ sub)) (["Text"; "Lyric"; "LyricText"] ++ sub)) = Some (always KLyricText).
Proof. intros sub. apply find_sub; [discriminate|reflexivity|]. extensions. Qed.
Lemma method_keyword : forall sub, find_method (iteration (length (["Keyword"] ++ sub)) (["Keyword"] ++ sub)) = Some keyword_action.
Proof. intros sub. apply find_sub; [discriminate|reflexivity|]. extensions. Qed.
Lemma method_function : forall sub, (forall r, sub <> "Dynamic" :: r) ->
  find_method (iteration (length (["Name"; "Builtin"] ++ sub)) (["Name"; "Builtin"] ++ sub)) = Some (looked_up_or builtin_mapping KMusicFunction).
Proof. intros sub H. apply find_sub; [discriminate|reflexivity|]. extensions. exact (H _ eq_refl). Qed.
Lemma method_symbol : forall sub, (forall r, sub <> "Spanner" :: r) ->
  find_method (iteration (length (["Name"; "Symbol"] ++ sub)) (["Name"; "Symbol"] ++ sub)) = Some (always KSymbol).
Proof. intros sub H. apply find_sub; [discriminate|reflexivity|]. extensions. exact (H _ eq_refl). Qed.

Section Kept.
Variable own_read : cls -> str -> res hv.
Variable own_write : cls -> hv -> res str.
Notation make := (make own_read).
Notation written := (written own_write).
Notation read_token := (read_token own_read).

Definition round_trip (c : cls) (text : str) : bool :=
  match make c text with Ok e => match written e with Ok s => str_eq s text | Err _ => false end | Err _ => false end.
Lemma round_trip_ok : forall c text, round_trip c text = true -> exists e, make c text = Ok e /\ written e = Ok text.
Proof.
  intros c text H. unfold round_trip in H. destruct (make c text) as [e|]; [|discriminate]. destruct (written e) as [s|] eqn:W; [|discriminate].
  apply str_eq_true in H. subst s. eauto.
Qed.
Lemma table_ok : forall d text c, forallb (fun kv => round_trip (snd kv) (fst kv)) d = true -> dict_find str_eq d text = Some c -> round_trip c text = true.
Proof.
  intros d text c H F. apply dict_find_in in F; [|intros; apply str_eq_true; assumption]. exact (proj1 (forallb_forall _ _) H _ F).
Qed.

Lemma token_methods_ok : forallb (fun kv => round_trip (snd kv) (fst kv)) token_methods = true. Proof. vm_compute. reflexivity. Qed.
Lemma builtin_ok : forallb (fun kv => round_trip (snd kv) (fst kv)) builtin_mapping = true. Proof. vm_compute. reflexivity. Qed.
Lemma articulations_ok : forallb (fun kv => round_trip (snd kv) (fst kv)) articulations_mapping = true. Proof. vm_compute. reflexivity. Qed.

Lemma by_class : forall text a c, token_class text a = Ok (Some c) -> round_trip c text = true ->
  exists e, read_token text a = Ok (Some e) /\ written e = Ok text.
Proof. intros text a c T R. destruct (round_trip_ok _ _ R) as (e & M & W). exists e. unfold Dispatch_Model.read_token. rewrite T. cbn [bindr]. rewrite M. auto. Qed.

Lemma backslash_ok : forall c text, head_of c = Backslash_head -> is_command text -> round_trip c text = true.
Proof. intros c text H (n & ->). unfold round_trip, Dispatch_Model.make, Dispatch_Model.written. rewrite !H. apply str_eq_true. cbn. rewrite app_nil_r. reflexivity. Qed.
Lemma text_ok : forall c text, head_of c = Text_head -> round_trip c text = true.
Proof. intros c text H. unfold round_trip, Dispatch_Model.make, Dispatch_Model.written. rewrite !H. apply str_eq_true. reflexivity. Qed.

(** Every token that parce gives becomes an element that writes the text of the token.  (Numbers and durations are not among [lexed]; what they write is
    the matter of C80 and C102.) *)
Theorem C114_text_kept : forall text a, lexed text a -> exists e, read_token text a = Ok (Some e) /\ written e = Ok text.
Proof.
  intros text a L. destruct (dict_find str_eq token_methods text) as [c|] eqn:T.
  { apply (by_class _ _ c); [unfold token_class; rewrite T; reflexivity|exact (table_ok _ _ _ token_methods_ok T)]. }
  assert (TC : forall m, find_method (iteration (length a) a) = Some m -> token_class text a = m text a) by (intros m F; unfold token_class; rewrite T, F; reflexivity).
  destruct L.
  - specialize (TC pitch_action eq_refl). unfold pitch_action in TC. destruct (str_eq text (txt "q")) eqn:Q; eapply by_class; try exact TC.
    + apply str_eq_true in Q. subst. reflexivity.
    + apply text_ok. reflexivity.
  - specialize (TC pitch_action eq_refl). unfold pitch_action in TC. destruct (str_eq text (txt "q")) eqn:Q; eapply by_class; try exact TC.
    + apply str_eq_true in Q. subst. reflexivity.
    + apply text_ok. reflexivity.
  - eapply by_class; [exact (TC _ eq_refl)|apply text_ok; reflexivity].
  - repeat (destruct H as [<-|H]; [eapply by_class; [vm_compute; reflexivity|vm_compute; reflexivity]|]). destruct H.
  - repeat (destruct H as [<-|H]; [eapply by_class; [vm_compute; reflexivity|vm_compute; reflexivity]|]). destruct H.
  - eapply by_class; [exact (TC _ eq_refl)|apply backslash_ok; [reflexivity|assumption]].
  - specialize (TC _ (method_articulation sub)). unfold looked_up_or in TC. destruct (dict_find str_eq articulations_mapping text) as [c|] eqn:D; eapply by_class; try exact TC.
    + exact (table_ok _ _ _ articulations_ok D).
    + apply text_ok. reflexivity.
  - repeat (destruct H as [<-|H]; [eapply by_class; [vm_compute; reflexivity|vm_compute; reflexivity]|]). destruct H.
  - repeat (destruct H as [<-|H]; [eapply by_class; [vm_compute; reflexivity|vm_compute; reflexivity]|]). destruct H.
  - eapply by_class; vm_compute; reflexivity.
  - repeat (destruct H as [<-|H]; [eapply by_class; [vm_compute; reflexivity|vm_compute; reflexivity]|]). destruct H.
  - repeat (destruct H as [<-|H]; [eapply by_class; [vm_compute; reflexivity|vm_compute; reflexivity]|]). destruct H.
  - eapply by_class; vm_compute; reflexivity.
  - eapply by_class; vm_compute; reflexivity.
  - eapply by_class; [exact (TC _ eq_refl)|apply backslash_ok; [reflexivity|assumption]].
  - eapply by_class; vm_compute; reflexivity.
  - eapply by_class; vm_compute; reflexivity.
  - eapply by_class; vm_compute; reflexivity.
  - repeat (destruct H as [<-|H]; [eapply by_class; [vm_compute; reflexivity|vm_compute; reflexivity]|]). destruct H.
  - eapply by_class; [exact (TC _ (method_symbol _ H))|apply text_ok; reflexivity].
  - eapply by_class; vm_compute; reflexivity.
  - eapply by_class; [exact (TC _ (method_lyric _))|apply text_ok; reflexivity].
  - eapply by_class; vm_compute; reflexivity.
  - eapply by_class; vm_compute; reflexivity.
  - eapply by_class; vm_compute; reflexivity.
  - specialize (TC _ (method_function _ H0)). unfold looked_up_or in TC. destruct (dict_find str_eq builtin_mapping text) as [c|] eqn:D; eapply by_class; try exact TC.
    + exact (table_ok _ _ _ builtin_ok D).
    + apply backslash_ok; [reflexivity|assumption].
  - specialize (TC _ (method_keyword sub)). unfold keyword_action in TC.
    repeat (destruct H as [<-|H]; [vm_compute in H0; repeat (destruct H0 as [<-|H0]; [eapply by_class; [exact TC|vm_compute; reflexivity]|]); destruct H0|]). destruct H.
  - exfalso. repeat (destruct H as [<-|H]; [vm_compute in H0; repeat (destruct H0 as [<-|H0]; [discriminate T|]); destruct H0|]). destruct H.
  - discriminate T.
  - discriminate T.
Qed.
End Kept.
Print Assumptions C114_text_kept.

(** ** The classes *)
Definition same (r : res (option cls)) (c : cls) : bool := match r with Ok (Some d) => Nat.eqb (number d) (number c) | _ => false end.
Lemma same_ok : forall r c, same r c = true -> r = Ok (Some c).
Proof. intros [[d|]|] c H; try discriminate. apply Nat.eqb_eq, number_inj in H. subst. reflexivity. Qed.
Definition own_of (m : method) (text : str) (a : action) : res (option cls) := match dict_find str_eq token_methods text with Some c => Ok (Some c) | None => m text a end.
Definition is_missing (text : str) (c : cls) : bool := existsb (fun tc => str_eq (fst tc) text && Nat.eqb (number (snd tc)) (number c)) missing.
Lemma is_missing_ok : forall text c, is_missing text c = true -> In (text, c) missing.
Proof.
  intros text c H. apply existsb_exists in H. destruct H as ([t d] & I & H). apply andb_true_iff in H. destruct H as [A B]. apply str_eq_true in A.
  apply Nat.eqb_eq, number_inj in B. cbn [fst snd] in *. subst. exact I.
Qed.
Definition classes_ok (m : method) (l : list cls) : bool :=
  forallb (fun c => forallb (fun text => is_missing text c || same (own_of m text []) c) (commands c)) l.
Lemma classes_ok_in : forall m l, (forall text a b, m text a = m text b) -> classes_ok m l = true -> forall c text a, In c l -> In text (commands c) -> ~ In (text, c) missing ->
  find_method (iteration (length a) a) = Some m -> token_class text a = Ok (Some c).
Proof.
  intros m l MA H c text a I J N F. apply (proj1 (forallb_forall _ _) H) in I. apply (proj1 (forallb_forall _ _)) with (x := text) in I; [|exact J].
  apply orb_true_iff in I. destruct I as [I|I]; [apply is_missing_ok in I; contradiction|]. apply same_ok in I. unfold own_of in I. unfold token_class. rewrite F, (MA text a []). exact I.
Qed.

(** Every command becomes an element of the class of that command.
    Missing for the full claim: the commands in [missing] (see C114_missing_finding). *)
Theorem C114_class_partial : forall c text sub, In text (commands c) -> ~ In (text, c) missing ->
  (In c functions -> (forall r, sub <> "Dynamic" :: r) -> token_class text (["Name"; "Builtin"] ++ sub) = Ok (Some c)) /\
  (In c keywords -> token_class text ("Keyword" :: sub) = Ok (Some c)) /\
  (In c spanning -> token_class text (["Name"; "Script"; "Articulation"] ++ sub) = Ok (Some c)) /\
  (In c everywhere -> token_class text sub = Ok (Some c)).
Proof.
  intros c text sub J N. split; [|split; [|split]]; intros I.
  - intros H. apply (classes_ok_in (looked_up_or builtin_mapping KMusicFunction) functions); auto using method_function.
  - apply (classes_ok_in keyword_action keywords); auto using (method_keyword sub).
  - apply (classes_ok_in (looked_up_or articulations_mapping KArticulation) spanning); auto using method_articulation.
  - unfold token_class. clear N. repeat (destruct I as [<-|I]; [vm_compute in J; repeat (destruct J as [<-|J]; [reflexivity|]); destruct J|]). destruct I.
Qed.
Print Assumptions C114_class_partial.

Definition knownb (l : list cls) (text : str) : bool := existsb (str_eq text) modifiers || existsb (fun c => existsb (str_eq text) (commands c)) (l ++ everywhere).
Lemma knownb_ok : forall l text, knownb l text = true -> known l text.
Proof.
  intros l text H. apply orb_true_iff in H. destruct H as [H|H]; apply existsb_exists in H.
  - left. destruct H as (x & I & E). apply str_eq_true in E. subst. exact I.
  - right. destruct H as (c & I & E). exists c. split; [exact I|]. apply existsb_exists in E. destruct E as (x & J & E). apply str_eq_true in E. subst. exact J.
Qed.
Lemma unknown_none : forall l (d : list (str * cls)) text, forallb (fun kv => knownb l (fst kv)) d = true -> ~ known l text -> dict_find str_eq d text = None.
Proof.
  intros l d text H N. destruct (dict_find str_eq d text) as [c|] eqn:F; [exfalso|reflexivity]. apply dict_find_in in F; [|intros; apply str_eq_true; assumption].
  apply (proj1 (forallb_forall _ _) H) in F. apply N, knownb_ok. exact F.
Qed.
Lemma knownb_own : forall l, forallb (fun kv => knownb l (fst kv)) token_methods = true.
Proof.
  intros l. apply forallb_forall. intros [t c] I. unfold knownb. rewrite existsb_app. apply orb_true_iff.
  assert (Q : existsb (str_eq t) modifiers || existsb (fun c => existsb (str_eq t) (commands c)) everywhere = true).
  { cbn in I. repeat (destruct I as [I|I]; [injection I as <- <-; vm_compute; reflexivity|]). destruct I. }
  apply orb_true_iff in Q. cbn [fst]. destruct Q as [->| ->]; [left; reflexivity|right; apply orb_true_r].
Qed.

(** Every other command is a generic music function, and every other articulation a generic one. *)
Theorem C114_generic : forall text sub,
  (~ known functions text -> (forall r, sub <> "Dynamic" :: r) -> token_class text (["Name"; "Builtin"] ++ sub) = Ok (Some KMusicFunction)) /\
  (~ known spanning text -> token_class text (["Name"; "Script"; "Articulation"] ++ sub) = Ok (Some KArticulation)).
Proof.
  intros text sub. split.
  - intros N H. unfold token_class. rewrite (unknown_none _ token_methods _ (knownb_own _) N), (method_function _ H). unfold looked_up_or.
    rewrite (unknown_none functions builtin_mapping); [reflexivity|vm_compute; reflexivity|exact N].
  - intros N. unfold token_class. rewrite (unknown_none _ token_methods _ (knownb_own _) N), (method_articulation sub). unfold looked_up_or.
    rewrite (unknown_none spanning articulations_mapping); [reflexivity|vm_compute; reflexivity|exact N].
Qed.
Print Assumptions C114_generic.

(** There are classes for \applyContext, \applyMusic and \applyOutput, but reading gives a generic music function; so it does for \partCombine (only the old
    \partcombine is known). *)
Theorem C114_missing_finding : forall text c, In (text, c) missing ->
  In c functions /\ In text (commands c) /\ token_class text ["Name"; "Builtin"] = Ok (Some KMusicFunction).
Proof. intros text c I. repeat (destruct I as [I|I]; [injection I as <- <-; vm_compute; intuition|]). destruct I. Qed.
Print Assumptions C114_missing_finding.

(** A keyword that is not known is dropped: no element is made. *)
Theorem C114_keyword_finding : forall own_read text sub, ~ known keywords text -> read_token own_read text ("Keyword" :: sub) = Ok None.
Proof.
  intros own_read text sub N. change ("Keyword" :: sub) with (["Keyword"] ++ sub). unfold read_token, token_class. rewrite (unknown_none _ token_methods _ (knownb_own _) N), (method_keyword sub).
  unfold keyword_action. rewrite (unknown_none keywords keyword_mapping), (unknown_none keywords keyword_methods); try (vm_compute; reflexivity); try exact N.
Qed.
Print Assumptions C114_keyword_finding.

(** Rests and the signs in chord names are only these: with any other text (that is not a command that is known everywhere) reading raises
    KeyError; no element is made up, and the token is not dropped silently. *)
Definition rests : list str := map txt ["r"; "R"; "s"].
Definition chord_signs : list str := map txt [":"; "^"; "/"; "/+"].
Lemma outside_none : forall (l : list str) (d : list (str * cls)) text, forallb (fun kv => existsb (str_eq (fst kv)) l) d = true -> ~ In text l -> dict_find str_eq d text = None.
Proof.
  intros l d text H N. destruct (dict_find str_eq d text) as [c|] eqn:F; [exfalso|reflexivity]. apply dict_find_in in F; [|intros; apply str_eq_true; assumption].
  apply (proj1 (forallb_forall _ _) H) in F. cbn [fst] in F. apply existsb_exists in F as (x & J & E). apply str_eq_true in E. subst. contradiction.
Qed.
Theorem C114_strict : forall own_read text, ~ known [] text ->
  (~ In text rests -> read_token own_read text ["Text"; "Music"; "Rest"] = Err KeyError) /\
  (~ In text chord_signs -> read_token own_read text ["Delimiter"; "Separator"; "Chord"] = Err KeyError).
Proof.
  intros own_read text N. assert (T : dict_find str_eq token_methods text = None) by exact (unknown_none [] token_methods _ (knownb_own _) N). split; intros O.
  - assert (D : dict_find str_eq rest_mapping text = None) by (apply (outside_none rests); [vm_compute; reflexivity|exact O]).
    unfold read_token, token_class. rewrite T. change (find_method _) with (Some (looked_up rest_mapping)). cbn iota. unfold looked_up. rewrite D. reflexivity.
  - assert (D : dict_find str_eq chord_modifier_mapping text = None) by (apply (outside_none chord_signs); [vm_compute; reflexivity|exact O]).
    unfold read_token, token_class. rewrite T. change (find_method _) with (Some (looked_up chord_modifier_mapping)). cbn iota. unfold looked_up. rewrite D. reflexivity.
Qed.
Print Assumptions C114_strict.
Example C114_strict_witness : ~ known [] (txt "x") /\ ~ In (txt "x") rests /\ ~ In (txt "x") chord_signs.
Proof.
  split; [|split; vm_compute; intuition discriminate]. intros [K|(c & C & K)]; [vm_compute in K; intuition discriminate|].
  repeat (destruct C as [<-|C]; [vm_compute in K; intuition discriminate|]). destruct C.
Qed.

(** The head of a symbol or command with several forms is what it means, and each meaning is written as its form. *)
Definition value_of (m : meaning) : hv := match m with Number z => HInt z | Word s => HStr (txt s) | Yes => HBool true | No => HBool false end.
Lemma hv_eqb_refl : forall a, hv_eqb a a = true.
Proof. induction a as [s|z|b|a IHa b IHb]; cbn [hv_eqb]; [apply str_eq_true; reflexivity|apply Z.eqb_refl|destruct b; reflexivity|rewrite IHa, IHb; reflexivity]. Qed.
Lemma hv_eqb_eq : forall a b, hv_eqb a b = true <-> a = b.
Proof.
  intros a b. split; [|intros ->; apply hv_eqb_refl]. revert b. induction a as [s|z|x|a IHa c IHc]; intros [t|w|y|b d] H; cbn [hv_eqb] in H; try discriminate.
  - f_equal. apply str_eq_true. exact H.
  - f_equal. apply Z.eqb_eq. exact H.
  - f_equal. destruct x, y; first [reflexivity|discriminate].
  - apply andb_true_iff in H. destruct H as [H1 H2]. f_equal; auto.
Qed.
Theorem C114_meaning : forall own_read own_write c text m, In (c, text, m) meanings ->
  make own_read c (txt text) = Ok (E c (Some (value_of m))) /\ written own_write (E c (Some (value_of m))) = Ok (txt text).
Proof.
  intros own_read own_write c text m I. set (l := meanings) in I. vm_compute in l. subst l.
  repeat (destruct I as [I|I]; [injection I as <- <- <-; split; vm_compute; reflexivity|]). destruct I.
Qed.
Print Assumptions C114_meaning.
Definition cls_dec : forall a b : cls, {a = b} + {a <> b}.
Proof. decide equality. Defined.
Definition meant (c : cls) (text : str) (v : hv) : bool :=
  existsb (fun x => match x with (c', s, m) => (if cls_dec c' c then true else false) && (str_eq (txt s) text && hv_eqb (value_of m) v) end) meanings.
Lemma meant_in c text v : meant c text v = true -> exists s m, In (c, s, m) meanings /\ text = txt s /\ v = value_of m.
Proof.
  intros H. apply existsb_exists in H. destruct H as ([[c' s] m] & I & H). destruct (cls_dec c' c) as [->|]; [|discriminate]. cbn [andb] in H. apply andb_true_iff in H.
  destruct H as [H1 H2]. apply str_eq_true in H1. apply (proj1 (hv_eqb_eq _ _)) in H2. exists s, m. auto.
Qed.
Lemma tables_meant : forallb (fun c => match head_of c with
  | Table t => forallb (fun kv => meant c (fst kv) (snd kv)) t && forallb (fun vk => meant c (snd vk) (fst vk)) (inverted str hv hv_eqb t)
  | _ => false end) (map (fun x => fst (fst x)) meanings) = true.
Proof. vm_compute. reflexivity. Qed.
(** No other text is read as an element of these classes, and no other value is written: both raise KeyError. *)
Theorem C114_only : forall own_read own_write c, In c (map (fun x => fst (fst x)) meanings) ->
  (forall text, make own_read c text = Err KeyError \/ exists s m, In (c, s, m) meanings /\ text = txt s /\ make own_read c text = Ok (E c (Some (value_of m)))) /\
  (forall v, written own_write (E c (Some v)) = Err KeyError \/ exists s m, In (c, s, m) meanings /\ v = value_of m /\ written own_write (E c (Some v)) = Ok (txt s)).
Proof.
  intros own_read own_write c I. pose proof (proj1 (forallb_forall _ _) tables_meant c I) as T. cbn beta in T. unfold make, written. destruct (head_of c) as [|t| | |]; try discriminate.
  apply andb_true_iff in T. destruct T as [T1 T2]. split.
  - intros text. unfold read_head. destruct (dict_find str_eq t text) as [v|] eqn:D; [right|left; reflexivity].
    apply dict_find_in in D; [|intros; apply str_eq_true; assumption]. destruct (meant_in _ _ _ (proj1 (forallb_forall _ _) T1 _ D)) as (s & m & J & E1 & E2).
    exists s, m. cbn in E1, E2. subst. auto.
  - intros v. unfold write_head. destruct (dict_find hv_eqb (inverted str hv hv_eqb t) v) as [k|] eqn:D; [right|left; reflexivity].
    apply dict_find_in in D; [|intros; apply hv_eqb_eq; assumption]. destruct (meant_in _ _ _ (proj1 (forallb_forall _ _) T2 _ D)) as (s & m & J & E1 & E2).
    exists s, m. cbn in E1, E2. subst. auto.
Qed.
Print Assumptions C114_only.

(** \startTrillSpan is a TrillSpanner that starts; \description is dropped. *)
Definition no_read (c : cls) (s : str) : res hv := Err ValueError.
Example C114_witness :
  lexed (txt "\startTrillSpan") ["Name"; "Script"; "Articulation"] /\
  read_token no_read (txt "\startTrillSpan") ["Name"; "Script"; "Articulation"] = Ok (Some (E KTrillSpanner (Some (HStr (txt "start"))))) /\
  read_token no_read (txt "\slurUp") ["Name"; "Builtin"] = Ok (Some (E KGrobDirection (Some (HPair (HStr (txt "Slur")) (HInt 1))))) /\
  read_token no_read (txt "\foo") ["Name"; "Builtin"; "Unit"] = Ok (Some (E KMusicFunction (Some (HStr (txt "foo"))))) /\
  In (txt "\slurUp") (commands KGrobDirection) /\ ~ In (txt "\slurUp", KGrobDirection) missing /\
  ~ known functions (txt "\foo") /\ ~ known keywords (txt "\description").
Proof.
  repeat split; try (vm_compute; reflexivity).
  - exact (lexed_articulation _ []).
  - vm_compute. intuition.
  - vm_compute. intuition discriminate.
  - intros [I|(c & I & J)]; [vm_compute in I; intuition discriminate|]. cbn [functions everywhere app] in I.
    repeat (destruct I as [<-|I]; [vm_compute in J; intuition discriminate|]). destruct I.
  - intros [I|(c & I & J)]; [vm_compute in I; intuition discriminate|]. cbn [keywords everywhere app] in I.
    repeat (destruct I as [<-|I]; [vm_compute in J; intuition discriminate|]). destruct I.
Qed.
