(** Properties C48-C52: written text, spacing attributes, writing back. *)
From Coq Require Import String Ascii List Arith Bool Lia.
From Verif Require Import Base Element_Model Element_Spec Element_Proofs Element_Edits.
Import ListNotations.
Local Open Scope string_scope.

(** * C48 *)
Theorem C48_write : forall concat_space e ts,
  has_origins e -> Forall2 is_text (texts e) ts ->
  exists s, write concat_space e = Ok s /\
    joined (snd (sections (layout concat_space e))) s /\
    map fst (snd (sections (layout concat_space e))) = filter truthy ts.
Proof. exact write_spec. Qed.
Print Assumptions C48_write.

Fixpoint item_reqs (l : list item) : list str :=
  match l with [] => [] | Req w :: r => w :: item_reqs r | Txt _ :: r => item_reqs r end.

Lemma sections_reqs_in : forall l, (forall w, In w (fst (sections l)) -> In w (item_reqs l)) /\
  forall t ws w, In (t, ws) (snd (sections l)) -> In w ws -> In w (item_reqs l).
Proof.
  induction l as [|[v|f] l [IH1 IH2]]; cbn [sections item_reqs].
  - split; [intros w []|intros t ws w []].
  - destruct (sections l) as [ws s] eqn:S. cbn [fst snd] in *. split.
    + intros w [<-|I]; [left; reflexivity|right; auto].
    + intros t ws' w I J. right. eapply IH2; eauto.
  - destruct (sections l) as [ws s] eqn:S. cbn [fst snd] in *.
    destruct (f_text f) as [[|c t]|]; cbn [fst snd]; split; auto.
    + intros w [].
    + intros t' ws' w [E|I] J; [injection E; intros; subst; auto|eapply IH2; eauto].
Qed.

Lemma joined_spaced : forall secs s, joined secs s -> (forall t ws w, In (t, ws) secs -> In w ws -> blank w) ->
  spaced (map fst secs) s.
Proof.
  intros secs s J. induction J as [|t ws|t ws g x l s G J IH]; intros B; [constructor|constructor|].
  cbn [map fst]. constructor.
  - destruct ws as [|w ws].
    + destruct G as [[_ ->]|(l1 & l2 & E & _)]; [intros c []|destruct l1; discriminate].
    + apply (B t (w :: ws)); [left; reflexivity|]. apply strongest_in; [exact G|discriminate].
  - apply IH. intros t' ws' w I. apply (B t'). right; exact I.
Qed.

(** The written text is the non-empty heads and tails in document order with
    only whitespace between them, if all requests are whitespace. *)
Theorem C48_order : forall concat_space e ts,
  has_origins e -> Forall2 is_text (texts e) ts ->
  (forall w, In (Req w) (layout concat_space e) -> blank w) ->
  exists s, write concat_space e = Ok s /\ spaced (filter truthy ts) s.
Proof.
  intros cs e ts O F B. destruct (write_spec cs e ts O F) as (s & W & J & T).
  exists s. split; [exact W|]. rewrite <- T. apply joined_spaced; [exact J|].
  intros t ws w I1 I2. apply B.
  pose proof (proj2 (sections_reqs_in (layout cs e)) t ws w I1 I2) as I.
  revert I. generalize (layout cs e). induction l as [|[v|f] l IH]; cbn [item_reqs]; intros I; [destruct I| |right; auto].
  destruct I as [->|I]; [left; reflexivity|right; auto].
Qed.
Print Assumptions C48_order.

(** Writing fails only where a text cannot be written (Unknown nodes) or an
    origin is an empty tuple. *)
Theorem C48_fails : forall concat_space e err, write concat_space e = Err err -> has_origins e ->
  exists t, In t (texts e) /\ t = Err err.
Proof.
  intros cs e err W O. destruct (points_repr cs e O) as (ps & PS & PR & _).
  unfold write in W. rewrite PS in W. cbn [bindr] in W.
  rewrite <- (layout_texts cs e), <- (repr_texts _ _ PR).
  assert (G : forall ps err, fragments ps = Err err -> In (Err err) (map p_text ps)).
  { clear. induction ps as [|p ps IH]; intros err F; [discriminate|]. cbn [fragments map] in *.
    destruct (p_text p) as [t|e'] eqn:P; [|injection F as ->; left; reflexivity].
    cbn [bindr] in F. destruct (fragments ps) as [fs|e'] eqn:FS; [discriminate|]. right. apply IH. exact F. }
  destruct (fragments ps) as [fs|e'] eqn:FS.
  - cbn [bindr] in W. destruct (combine_text fs) as [[? ?] ?]. discriminate.
  - cbn [bindr] in W. injection W as ->. eauto.
Qed.
Print Assumptions C48_fails.

(** Elements for examples. *)
Definition plain id between after kids := E (Attrs Plain id (Ok []) [] None None false false [] [] (txt between) [] (txt after)) kids.
Definition leaf id head before after := E (Attrs Head id (Ok (txt head)) [] None None false false (txt before) [] [] [] (txt after)) [].
Definition block id head tail space kids := E (Attrs Block id (Ok (txt head)) (txt tail) None None false false [] (txt space) (txt space) (txt space) []) kids.
Definition newline := String (ascii_of_nat 10) "".

Example C48_witness :
  let e := plain 0 " " "" [leaf 1 "\relative" "" ""; block 2 "{" "}" newline [leaf 3 "c" "" " "; leaf 4 "" " " ""; leaf 5 "d" "" ""]] in
  has_origins e /\ exists ts, Forall2 is_text (texts e) ts /\ length (filter truthy ts) = 5 /\
  write concat_default e = Ok (txt ("\relative {" ++ newline ++ "c" ++ newline ++ "d" ++ newline ++ "}")).
Proof.
  cbv zeta. split; [cbn; repeat split; right; discriminate|]. eexists. split; [repeat constructor|]. split; reflexivity.
Qed.

(** Finding: an element without head that has no children (base.Newline,
    base.BlankLine) writes nothing, not even its [space_after]. *)
Theorem C48_newline_finding : forall id between1 between2 after a b,
  write concat_default (plain id between1 "" [leaf 1 a "" ""; plain 2 between2 after []; leaf 3 b "" ""]) =
  write concat_default (plain id between1 "" [leaf 1 a "" ""; leaf 3 b "" ""]).
Proof. intros. reflexivity. Qed.
Print Assumptions C48_newline_finding.

(** Finding: the [space_before] of an element without head (base.Line, base.Column) is ignored. *)
Theorem C48_before_finding : forall a b c,
  write concat_default (plain 0 "" "" [leaf 1 a "" "";
     E (Attrs Plain 2 (Ok []) [] None None false false (txt newline) [] [] [] []) [leaf 3 b "" ""]; leaf 4 c "" ""])
  = write concat_default (plain 0 "" "" [leaf 1 a "" ""; leaf 3 b "" ""; leaf 4 c "" ""]).
Proof. intros. reflexivity. Qed.
Print Assumptions C48_before_finding.

(** * C49 *)
Theorem C49_collapse : forall ws, strongest ws (collapse_whitespace ws).
Proof. exact strongest_collapse. Qed.
Print Assumptions C49_collapse.

(** What is written is one of the requests, with the most newlines, and with
    the most spaces among those with the most newlines. *)
Theorem C49_strongest : forall ws g, strongest ws g -> ws <> [] ->
  In g ws /\ (forall w, In w ws -> newlines w <= newlines g) /\
  (forall w, In w ws -> newlines w = newlines g -> spaces w <= spaces g).
Proof.
  intros ws g S N. split; [apply strongest_in; assumption|].
  split; intros w I; pose proof (strongest_max _ _ w S I) as M; unfold stronger in M; lia.
Qed.
Print Assumptions C49_strongest.

Definition fragment_items (fs : list (str * str * str)) : list item :=
  flat_map (fun f => let '(b, t, a) := f in [Req b; Txt (Frag None (Ok t) false); Req a]) fs.

Lemma fragment_repr : forall fs, exists ps, fragments ps = Ok fs /\ repr ps (fragment_items fs).
Proof.
  induction fs as [|[[b t] a] fs (ps & F & R)]; [exists []; split; [reflexivity|constructor]|].
  exists (Point None (Ok t) false b a :: ps). split.
  - cbn. rewrite F. reflexivity.
  - cbn [fragment_items flat_map app].
    apply (repr_cons (Point None (Ok t) false b a) [a] ps (fragment_items fs)); [discriminate|reflexivity|exact R].
Qed.

(** combine_text: the texts joined by the strongest requests between them, the strongest request
    before the first text and after the last. *)
Theorem C49_combine : forall fs, exists lead s trail,
  combine_text fs = (lead, s, trail) /\
  joined (snd (sections (fragment_items fs))) s /\
  map fst (snd (sections (fragment_items fs))) = filter truthy (map (fun f => snd (fst f)) fs) /\
  (snd (sections (fragment_items fs)) = [] -> lead = []) /\
  (snd (sections (fragment_items fs)) <> [] -> strongest (fst (sections (fragment_items fs))) lead) /\
  strongest (trailing (fst (sections (fragment_items fs))) (snd (sections (fragment_items fs)))) trail.
Proof.
  intros fs. destruct (fragment_repr fs) as (ps & F & R).
  destruct (combine_sections ps _ R fs F [] [] [] (weq_refl _)) as (W & C & T).
  unfold combine_text. rewrite C. do 3 eexists. split; [reflexivity|].
  cbn [app]. split; [|split; [|split; [|split]]].
  - destruct (snd (sections (fragment_items fs))) eqn:S; [constructor|]. cbn [skipn]. apply interleave_joined.
  - apply section_texts_spec. clear.
    induction fs as [|[[b t] a] fs IH]; [constructor|]. cbn. constructor; [reflexivity|exact IH].
  - intros E. rewrite E. reflexivity.
  - intros N. destruct (snd (sections (fragment_items fs))) eqn:S; [congruence|].
    cbn [firstn concat]. rewrite app_nil_r. apply strongest_collapse.
  - rewrite (weq_eq _ _ T). apply strongest_collapse.
Qed.
Print Assumptions C49_combine.

Example C49_witness : combine_text
  [(txt "", txt "a", txt newline); (txt " ", txt "", txt "  "); (txt " ", txt "b", txt ""); (txt " ", txt "c", txt " ")]
  = (txt "", txt ("a" ++ newline ++ "b c"), txt " ").
Proof. reflexivity. Qed.

(** * C50 *)
Definition apply_op default (o : space_dict) (x : space_op) : space_dict :=
  match x with SetSpace n v => space_set default o n v | DelSpace n => space_del o n end.

(** The dictionary exists only while it holds something, each value differs from its default. *)
Definition sound default (o : space_dict) : Prop :=
  match o with
  | None => True
  | Some d => d <> [] /\ NoDup (map fst d) /\ forall n v, In (n, v) d -> v <> default n
  end.

Lemma str_eqb_spec : forall a b, str_eqb a b = true <-> a = b.
Proof. intros a b. unfold str_eqb. destruct (list_eq_dec ascii_dec a b); split; congruence. Qed.

Lemma dict_get_in : forall d n v, dict_get d n = Some v -> In (n, v) d.
Proof.
  induction d as [|[k w] d IH]; intros n v G; [discriminate|]. cbn in G.
  destruct (Nat.eqb_spec k n) as [->|N]; [injection G as ->; left; reflexivity|right; auto].
Qed.
Lemma dict_get_none : forall d n, dict_get d n = None <-> ~ In n (map fst d).
Proof.
  induction d as [|[k w] d IH]; intros n; cbn; [tauto|].
  destruct (Nat.eqb_spec k n) as [->|N]; [split; [discriminate|tauto]|]. rewrite IH. tauto.
Qed.
Lemma dict_del_keys : forall d n k, In k (map fst (dict_del d n)) -> In k (map fst d).
Proof.
  induction d as [|[j w] d IH]; intros n k I; [exact I|]. cbn in *. destruct (Nat.eqb j n); cbn in *; [auto|].
  destruct I; eauto.
Qed.
Lemma dict_del_in : forall d n p, In p (dict_del d n) -> In p d.
Proof.
  induction d as [|[j w] d IH]; intros n p I; [exact I|]. cbn in *. destruct (Nat.eqb j n); cbn in *; [auto|].
  destruct I; eauto.
Qed.
Lemma dict_del_nodup : forall d n, NoDup (map fst d) -> NoDup (map fst (dict_del d n)).
Proof.
  induction d as [|[j w] d IH]; intros n D; [exact D|]. cbn in *. inversion D as [|? ? D1 D2]; subst.
  destruct (Nat.eqb j n); [exact D2|]. cbn. constructor; [|auto]. intros I. apply D1. eapply dict_del_keys; eauto.
Qed.
Lemma dict_del_get : forall d n m, NoDup (map fst d) ->
  dict_get (dict_del d n) m = if Nat.eqb n m then None else dict_get d m.
Proof.
  induction d as [|[j w] d IH]; intros n m D; [cbn; destruct (Nat.eqb n m); reflexivity|].
  cbn in *. inversion D as [|? ? D1 D2]; subst.
  destruct (Nat.eqb_spec j n) as [->|N].
  - destruct (Nat.eqb_spec n m) as [->|M]; [apply dict_get_none; exact D1|reflexivity].
  - cbn. rewrite (IH _ _ D2). destruct (Nat.eqb_spec j m) as [->|M]; [|reflexivity].
    destruct (Nat.eqb_spec n m); [congruence|reflexivity].
Qed.
Lemma dict_set_get : forall d n v m, dict_get (dict_set d n v) m = if Nat.eqb n m then Some v else dict_get d m.
Proof.
  induction d as [|[j w] d IH]; intros n v m; [reflexivity|]. cbn.
  destruct (Nat.eqb_spec j n) as [->|N]; cbn; [destruct (Nat.eqb n m); reflexivity|].
  rewrite IH. destruct (Nat.eqb_spec j m) as [->|M]; [|reflexivity]. destruct (Nat.eqb_spec n m); [congruence|reflexivity].
Qed.
Lemma dict_set_keys : forall d n v k, In k (map fst (dict_set d n v)) -> k = n \/ In k (map fst d).
Proof.
  induction d as [|[j w] d IH]; intros n v k I; cbn in *; [intuition congruence|].
  destruct (Nat.eqb j n); cbn in *; [tauto|]. destruct I as [I|I]; [tauto|]. destruct (IH _ _ _ I); tauto.
Qed.
Lemma dict_set_in : forall d n v p, In p (dict_set d n v) -> p = (n, v) \/ In p d.
Proof.
  induction d as [|[j w] d IH]; intros n v p I; cbn in *; [destruct I as [I|[]]; auto|].
  destruct (Nat.eqb_spec j n) as [->|N]; cbn in *; [destruct I as [<-|I]; auto|].
  destruct I as [I|I]; [auto|]. destruct (IH _ _ _ I); auto.
Qed.
Lemma dict_set_nodup : forall d n v, NoDup (map fst d) -> NoDup (map fst (dict_set d n v)).
Proof.
  induction d as [|[j w] d IH]; intros n v D; cbn in *; [constructor; [intros []|constructor]|].
  inversion D as [|? ? D1 D2]; subst. destruct (Nat.eqb_spec j n) as [->|N]; cbn; [exact D|].
  constructor; [|auto]. intros I. destruct (dict_set_keys _ _ _ _ I); congruence.
Qed.

Lemma del_case : forall default d n, sound default (Some d) ->
  sound default (space_del (Some d) n) /\
  forall m, space_get default (space_del (Some d) n) m = if Nat.eqb n m then default m else space_get default (Some d) m.
Proof.
  intros default d n (N & D & V). cbn [space_del].
  destruct (dict_get d n) as [v|] eqn:G.
  - assert (X : forall m, space_get default (Some (dict_del d n)) m = if Nat.eqb n m then default m else space_get default (Some d) m).
    { intros m. cbn [space_get]. rewrite dict_del_get by exact D. destruct (Nat.eqb_spec n m) as [->|M]; reflexivity. }
    destruct (dict_del d n) as [|p d'] eqn:DD.
    + split; [exact Logic.I|exact X].
    + split; [|exact X]. rewrite <- DD. split; [congruence|]. split; [apply dict_del_nodup; exact D|].
      intros k w I. apply V. eapply dict_del_in; eauto.
  - split; [split; auto|]. intros m. cbn [space_get]. destruct (Nat.eqb_spec n m) as [<-|M]; [rewrite G|]; reflexivity.
Qed.

Lemma op_sound : forall default o x, sound default o ->
  sound default (apply_op default o x) /\
  forall m, space_get default (apply_op default o x) m =
    if Nat.eqb (op_on x) m then match x with SetSpace _ v => v | DelSpace k => default k end else space_get default o m.
Proof.
  intros default o [n v|n] S; cbn [apply_op op_on].
  - unfold space_set. destruct (str_eqb v (default n)) eqn:E.
    + apply str_eqb_spec in E. subst v. destruct o as [d|].
      * destruct (del_case default d n S) as [A B]. split; [exact A|]. intros m. etransitivity; [apply (B m)|].
        destruct (Nat.eqb_spec n m) as [->|]; reflexivity.
      * split; [exact Logic.I|]. intros m. cbn. destruct (Nat.eqb_spec n m) as [->|]; reflexivity.
    + assert (NE : v <> default n) by (rewrite <- str_eqb_spec; congruence).
      destruct o as [d|].
      * destruct S as (S1 & S2 & S3). split.
        { split; [destruct d as [|[j w] d]; cbn; [discriminate|destruct (Nat.eqb j n); discriminate]|].
          split; [apply dict_set_nodup; exact S2|]. intros k w I. destruct (dict_set_in _ _ _ _ I) as [Q|Q]; [injection Q; intros; subst; assumption|auto]. }
        intros m. cbn [space_get]. rewrite dict_set_get. destruct (Nat.eqb n m); reflexivity.
      * split.
        { split; [discriminate|]. split; [repeat constructor; intros []|]. intros k w [Q|[]]. injection Q; intros; subst; assumption. }
        intros m. cbn. destruct (Nat.eqb n m); reflexivity.
  - destruct o as [d|].
    + destruct (del_case default d n S) as [A B]. split; [exact A|]. intros m. etransitivity; [apply (B m)|].
      destruct (Nat.eqb_spec n m) as [->|]; reflexivity.
    + split; [exact Logic.I|]. intros m. cbn. destruct (Nat.eqb_spec n m) as [->|]; reflexivity.
Qed.

(** After any history, every attribute reads as what was last assigned to it;
    the dictionary exists only if some attribute differs from its default. *)
Theorem C50_history : forall default h,
  let o := fold_left (apply_op default) h None in
  (forall name, space_get default o name = last_value default name h (default name)) /\
  (o <> None <-> exists name, last_value default name h (default name) <> default name).
Proof.
  intros default h o.
  assert (G : forall h o, sound default o -> sound default (fold_left (apply_op default) h o) /\
    forall m, space_get default (fold_left (apply_op default) h o) m = last_value default m h (space_get default o m)).
  { clear. induction h as [|x h IH]; intros o S; [split; [exact S|reflexivity]|].
    cbn [fold_left last_value]. destruct (op_sound default o x S) as [A B].
    destruct (IH _ A) as [C D]. split; [exact C|]. intros m. rewrite D, B. reflexivity. }
  destruct (G h None Logic.I) as [A B]. fold o in A, B. split; [intros name; apply B|].
  split.
  - intros N. destruct o as [d|]; [|congruence]. destruct A as (A1 & A2 & A3).
    destruct d as [|[k v] d]; [congruence|]. exists k. change (default k) with (space_get default None k) at 1. rewrite <- B.
    cbn [space_get dict_get]. rewrite Nat.eqb_refl. apply A3. left; reflexivity.
  - intros (k & K) E. apply K. change (default k) with (space_get default None k) at 1. rewrite <- B, E. reflexivity.
Qed.
Print Assumptions C50_history.

Example C50_witness : let d := fun _ => txt " " in
  fold_left (apply_op d) [SetSpace 0 (txt "x"); SetSpace 1 (txt newline); DelSpace 0; SetSpace 1 (txt " ")] None = None /\
  space_get d (fold_left (apply_op d) [SetSpace 0 (txt "x"); SetSpace 1 (txt newline); DelSpace 0] None) 1 = txt newline.
Proof. split; reflexivity. Qed.

(** * C51 *)
(** Where and with what whitespace requests the points of a tree are: the same texts, positions and
    modified flags in document order as in the layout, each with the first of its requests
    before it and the strongest of its requests after it. *)
Theorem C51_points : forall concat_space e, has_origins e ->
  exists ps, points concat_space e = Ok ps /\
    map (fun p => Frag (p_span p) (p_text p) (p_modified p)) ps =
    flat_map (fun i => match i with Txt f => [f] | Req _ => [] end) (layout concat_space e).
Proof.
  intros cs e O. destruct (points_repr cs e O) as (ps & P & R & _). exists ps. split; [exact P|].
  clear P O. induction R as [|p ws ps its N A R IH]; [reflexivity|].
  cbn [map flat_map]. rewrite flat_map_app.
  assert (Z : flat_map (fun i => match i with Txt f => [f] | Req _ => [] end) (map Req ws) = []) by (clear; induction ws; auto).
  rewrite Z. cbn. f_equal. exact IH.
Qed.
Print Assumptions C51_points.

(** The source text [text]; the tokens of the context in order, only whitespace
    between them from [pos] to [limit], where [pos] is the start and [limit] is
    beyond the last point. *)
Definition source (text : str) (tokens : list token) (pos limit : nat) : Prop :=
  tokens_from 0 tokens /\ cuts_no_token tokens pos /\ limit <= length text /\
  forall i c, pos <= i < limit -> outside tokens i -> nth_error text i = Some c -> is_ws c = true.

Theorem C51_edits : forall concat_space e ps text tokens context_pos context_end start end_ limit,
  let pos := match start with Some s => s | None => context_pos end in
  let stop := match end_ with Some s => s | None => context_end end in
  points concat_space e = Ok ps ->
  source text tokens pos limit -> last_end pos ps <= limit -> placed tokens pos ps ->
  Forall writable ps -> Forall (fun p => blank (p_before p) /\ blank (p_after p)) ps ->
  exists cs s, edits concat_space e context_pos context_end tokens start end_ = Ok cs /\
    in_order pos cs /\ rewritten text [] ps s /\
    apply_changes text 0 cs = (firstn pos text ++ s ++ skipn (Nat.max (last_end pos ps) stop) text)%list.
Proof.
  intros cs0 e ps text tokens cp ce start end_ limit pos stop P (S1 & S2 & S3 & S4) LE PL W B.
  destruct (edits_loop_spec text tokens pos limit S1 S4 ps [] tokens pos stop [] eq_refl) as (cs & s & R1 & R2 & R3 & R4); auto.
  { intros t []. }
  { intros c []. }
  exists cs, s. unfold edits. fold pos. fold stop. rewrite P. cbn [bindr]. rewrite R1. repeat split; auto.
  rewrite (apply_from text cs 0 pos) by (lia || assumption). rewrite R4. unfold between. cbn [skipn]. rewrite Nat.sub_0_r. reflexivity.
Qed.
Print Assumptions C51_edits.

(** "a b c" with b removed, c changed to "xx" and "n" added at the end. *)
Definition at_ id head i j modified := E (Attrs Head id (Ok (txt head)) [] (Some [Tok i j]) None modified false [] [] [] [] []) [].
Example C51_witness :
  let text := txt "a b c" in
  let tokens := [Tok 0 1; Tok 2 3; Tok 4 5] in
  let e := plain 0 " " "" [at_ 1 "a" 0 1 false; at_ 3 "xx" 4 5 true; leaf 4 "n" "" ""] in
  exists ps, points concat_default e = Ok ps /\ source text tokens 0 5 /\ last_end 0 ps <= 5 /\
    placed tokens 0 ps /\ Forall writable ps /\ Forall (fun p => blank (p_before p) /\ blank (p_after p)) ps /\
    exists cs, edits concat_default e 0 5 tokens None None = Ok cs /\ apply_changes text 0 cs = txt "a xx n".
Proof.
  cbv zeta. eexists. split; [reflexivity|]. split; [|split; [|split; [|split; [|split]]]].
  - repeat split; try (cbn; lia).
    + intros t I. right. lia.
    + intros i c L O N. destruct i as [|[|[|[|[|i]]]]]; cbn in N; try (injection N as <-; reflexivity); exfalso.
      * apply (O (Tok 0 1)); cbn; [auto|lia].
      * apply (O (Tok 2 3)); cbn; [auto|lia].
      * apply (O (Tok 4 5)); cbn; [auto|lia].
      * lia.
  - cbn. lia.
  - cbn. repeat split; try lia.
    + exists (Tok 0 1). cbn. auto.
    + intros t [<-|[<-|[<-|[]]]]; cbn; lia.
    + exists (Tok 4 5). cbn. auto.
    + intros t [<-|[<-|[<-|[]]]]; cbn; lia.
  - repeat constructor; intros _; eexists; reflexivity.
  - repeat constructor; intros c I; cbn in I; repeat (destruct I as [<-|I]; [reflexivity|]); destruct I.
  - eexists. split; reflexivity.
Qed.

(** Finding: whitespace wanted after a new text is not written if the source has any
    whitespace there: a new line comment swallows the rest of the line. *)
Theorem C51_newline_finding :
  let e := plain 0 " " "" [at_ 1 "c" 0 1 false; leaf 2 "%x" "" newline; at_ 3 "d" 2 3 false] in
  write concat_default e = Ok (txt ("c %x" ++ newline ++ "d")) /\
  exists cs, edits concat_default e 0 3 [Tok 0 1; Tok 2 3] None None = Ok cs /\
  apply_changes (txt "c d") 0 cs = txt "c %x d".
Proof. cbv zeta. split; [reflexivity|]. eexists. split; reflexivity. Qed.
Print Assumptions C51_newline_finding.

(** Finding: [start] does not protect text before it from being deleted if a node
    before it has been removed after a node that remains. *)
Theorem C51_start_finding :
  let e := plain 0 " " "" [at_ 1 "a" 0 1 false; at_ 3 "c" 4 5 false] in
  exists cs, edits concat_default e 0 5 [Tok 0 1; Tok 2 3; Tok 4 5] (Some 4) None = Ok cs /\
  In (Change 1 4 (txt " ")) cs.
Proof. cbv zeta. eexists. split; [reflexivity|]. left; reflexivity. Qed.
Print Assumptions C51_start_finding.

(** * C52 *)
Theorem C52_unmodified : forall concat_space e ps tokens context_pos context_end start end_,
  let pos := match start with Some s => s | None => context_pos end in
  let stop := match end_ with Some s => s | None => context_end end in
  points concat_space e = Ok ps ->
  tokens_from 0 tokens -> cuts_no_token tokens pos -> placed tokens pos ps ->
  untouched tokens pos [] ps -> stop <= last_end pos ps ->
  edits concat_space e context_pos context_end tokens start end_ = Ok [].
Proof.
  intros cs0 e ps tokens cp ce start end_ pos stop P O C PL U L.
  unfold edits. fold pos. fold stop. rewrite P. cbn [bindr].
  apply (untouched_spec tokens O ps [] tokens pos stop [] eq_refl); auto. intros t [].
Qed.
Print Assumptions C52_unmodified.

Example C52_witness :
  let e := plain 0 " " "" [at_ 1 "a" 0 1 false; at_ 3 "c" 4 5 false] in
  exists ps, points concat_default e = Ok ps /\ placed [Tok 0 1; Tok 4 5] 0 ps /\ untouched [Tok 0 1; Tok 4 5] 0 [] ps /\
    edits concat_default e 0 5 [Tok 0 1; Tok 4 5] None None = Ok [].
Proof.
  cbv zeta. eexists. split; [reflexivity|]. split; [|split; [|reflexivity]].
  - cbn. repeat split; try lia.
    + exists (Tok 0 1). cbn. auto.
    + intros t [<-|[<-|[]]]; cbn; lia.
    + exists (Tok 4 5). cbn. auto.
    + intros t [<-|[<-|[]]]; cbn; lia.
  - cbn. repeat split; try lia; try discriminate.
    + intros _. apply (strongest_collapse [[]; []]).
    + intros t [<-|[<-|[]]]; cbn; lia.
Qed.

(** Finding: where texts that touch want whitespace, it is inserted although nothing was modified. *)
Theorem C52_touching_finding :
  let e := E (Attrs Block 0 (Ok (txt "{")) (txt "}") (Some [Tok 0 1]) (Some [Tok 2 3]) false false [] (txt " ") (txt " ") (txt " ") [])
             [at_ 1 "c" 1 2 false] in
  exists cs, edits concat_default e 0 3 [Tok 0 1; Tok 1 2; Tok 2 3] None None = Ok cs /\
  apply_changes (txt "{c}") 0 cs = txt "{ c }".
Proof. cbv zeta. eexists. split; reflexivity. Qed.
Print Assumptions C52_touching_finding.
