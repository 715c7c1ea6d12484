(** Proofs about spelling preferences and pitch languages. *)
From Coq Require Import String Ascii List ZArith QArith Bool Lia Permutation.
From Coq Require Import ZifyBool ZifyNat.
From Verif Require Import Base Pitch_Model Pitch_Spec Pitch_Proofs.
Import ListNotations.
Open Scope Z_scope.

(** * Text *)

Lemma is_prefix_iff p s : is_prefix p s = true <-> exists b, s = p ++ b.
Proof.
  revert s. induction p as [|a p IH]; intros s; cbn [is_prefix].
  - split; [intros _; now exists s|reflexivity].
  - destruct s as [|b s].
    + split; [discriminate|intros [b H]; discriminate].
    + rewrite andb_true_iff, Ascii.eqb_eq, IH. split.
      * intros [-> [t ->]]. now exists t.
      * intros [t [= -> ->]]. split; [reflexivity|now exists t].
Qed.

Lemma contains_iff sub s : contains sub s = true <-> substring sub s.
Proof.
  unfold substring. induction s as [|c s IH]; cbn [contains]; rewrite orb_true_iff, is_prefix_iff.
  - split.
    + intros [[b H]|H]; [|discriminate]. exists [], b. exact H.
    + intros (a & b & H). left. destruct a; [|discriminate]. now exists b.
  - rewrite IH. split.
    + intros [[b H]|(a & b & H)]; [now exists [], b|]. exists (c :: a), b. now rewrite H.
    + intros ([|x a] & b & H); [left; now exists b|]. right. injection H as _ H. now exists a, b.
Qed.

Lemma endswith_iff suf s : endswith suf s = true <-> ends_in suf s.
Proof.
  unfold endswith, ends_in. rewrite is_prefix_iff. split; intros [b H].
  - exists (rev b). rewrite <- (rev_involutive s), H, rev_app_distr, rev_involutive. reflexivity.
  - exists (rev b). now rewrite H, rev_app_distr.
Qed.

Lemma in_strs_iff s l : in_strs s l = true <-> In s l.
Proof.
  unfold in_strs. rewrite existsb_exists. split.
  - intros (x & H & E). destruct (str_eqb_spec s x); [now subst|discriminate].
  - intros H. exists s. split; [exact H|apply str_eqb_refl].
Qed.

Lemma agrees_iff b (Q : Prop) c : (c = true <-> Q) -> (eqb b c = true <-> agrees b Q).
Proof.
  intros H. unfold agrees. rewrite eqb_true_iff. destruct b, c; intuition congruence.
Qed.

(** * C16 *)

Lemma first_name_matches f l : (exists n, In n l /\ f n = true) -> exists n, first_name f l = Some n /\ f n = true.
Proof.
  intros (n & H & F). unfold first_name. destruct (find f l) as [m|] eqn:E.
  - exists m. apply find_some in E. split; [reflexivity|tauto].
  - rewrite (find_none _ _ E n H) in F. discriminate.
Qed.

Lemma two_stage_matches f g l : (exists n, In n l /\ f n = true /\ g n = true) ->
  exists n, (match filter f l with
   | [x] => Some x
   | _ => first_name g (match filter f l with [] => l | _ => filter f l end)
   end) = Some n /\ f n = true /\ g n = true.
Proof.
  intros (n & H & F & G). assert (I : In n (filter f l)) by (apply filter_In; now split).
  destruct (filter f l) as [|x [|y r]] eqn:E.
  - destruct I.
  - destruct I as [<-|[]]. now exists x.
  - destruct (first_name_matches g (x :: y :: r)) as (m & M1 & M2); [now exists n|].
    exists m. split; [exact M1|]. split; [|exact M2].
    apply first_name_in in M1. rewrite <- E in M1. apply filter_In in M1. tauto.
Qed.

Definition match_bool (P : processor) (n : str) : bool :=
  let l := language P in
  if str_eqb l (txt "nederlands") then eqb (prefer_classic P) (in_strs n [txt "es"; txt "eses"; txt "as"; txt "ases"])
  else if str_eqb l (txt "catalan") then eqb (prefer_deprecated P) (endswith (txt "s") n)
  else if str_eqb l (txt "deutsch") then eqb (prefer_deprecated P) (in_strs n [txt "eeh"; txt "ases"; txt "aseh"; txt "aeh"])
  else if str_eqb l (txt "english") then
    eqb (prefer_long P) (contains (txt "-") n) && (prefer_long P || eqb (prefer_x P) (endswith (txt "x") n))
  else if str_eqb l (txt "espanol") || str_eqb l (txt "español") then eqb (prefer_x P) (endswith (txt "x") n)
  else if str_eqb l (txt "français") then
    eqb (prefer_accented P) (contains (txt "é") n) && eqb (prefer_x P) (endswith (txt "x") n)
  else if str_eqb l (txt "norsk") then
    eqb (prefer_double_s P) (contains (txt "ss") n) &&
    eqb (prefer_classic P) (negb (contains (txt "ee") n || contains (txt "ae") n))
  else if str_eqb l (txt "suomi") then eqb (prefer_deprecated P) (in_strs n [txt "ases"; txt "bb"; txt "heses"])
  else true.

Ltac conjs := match goal with |- _ /\ _ => split; [|conjs] | |- _ => idtac end.

Lemma match_bool_iff P n : match_bool P n = true <-> matches P n.
Proof.
  unfold match_bool, matches. cbv zeta.
  pose proof (agrees_iff (prefer_classic P) _ _ (in_strs_iff n [txt "es"; txt "eses"; txt "as"; txt "ases"])) as A1.
  pose proof (agrees_iff (prefer_deprecated P) _ _ (endswith_iff (txt "s") n)) as A2.
  pose proof (agrees_iff (prefer_deprecated P) _ _ (in_strs_iff n [txt "eeh"; txt "ases"; txt "aseh"; txt "aeh"])) as A3.
  pose proof (agrees_iff (prefer_long P) _ _ (contains_iff (txt "-") n)) as A4.
  pose proof (agrees_iff (prefer_x P) _ _ (endswith_iff (txt "x") n)) as A5.
  pose proof (agrees_iff (prefer_accented P) _ _ (contains_iff (txt "é") n)) as A6.
  pose proof (agrees_iff (prefer_double_s P) _ _ (contains_iff (txt "ss") n)) as A7.
  assert (A8 : eqb (prefer_classic P) (negb (contains (txt "ee") n || contains (txt "ae") n)) = true <->
    agrees (prefer_classic P) (~ (substring (txt "ee") n \/ substring (txt "ae") n))).
  { apply agrees_iff. rewrite negb_true_iff, <- !contains_iff, <- orb_true_iff.
    destruct (_ || _); intuition congruence. }
  pose proof (agrees_iff (prefer_deprecated P) _ _ (in_strs_iff n [txt "ases"; txt "bb"; txt "heses"])) as A9.
  fold (classic n) in A1.
  assert (A45 : eqb (prefer_long P) (contains (txt "-") n) && (prefer_long P || eqb (prefer_x P) (endswith (txt "x") n)) = true <->
    agrees (prefer_long P) (substring (txt "-") n) /\ (prefer_long P = false -> agrees (prefer_x P) (ends_in (txt "x") n))).
  { rewrite andb_true_iff, A4. destruct (prefer_long P); cbn [orb]; intuition congruence. }
  assert (A65 : eqb (prefer_accented P) (contains (txt "é") n) && eqb (prefer_x P) (endswith (txt "x") n) = true <->
    agrees (prefer_accented P) (substring (txt "é") n) /\ agrees (prefer_x P) (ends_in (txt "x") n)).
  { rewrite andb_true_iff, A6, A5. reflexivity. }
  assert (A78 : eqb (prefer_double_s P) (contains (txt "ss") n) &&
    eqb (prefer_classic P) (negb (contains (txt "ee") n || contains (txt "ae") n)) = true <->
    agrees (prefer_double_s P) (substring (txt "ss") n) /\
    agrees (prefer_classic P) (~ (substring (txt "ee") n \/ substring (txt "ae") n))).
  { rewrite andb_true_iff, A7, A8. reflexivity. }
  revert A1 A2 A3 A45 A5 A65 A78 A9. clear.
  generalize (language P). intros l.
  set (B1 := eqb (prefer_classic P) (in_strs _ _)). set (B2 := eqb (prefer_deprecated P) (endswith _ _)).
  set (B3 := eqb (prefer_deprecated P) (in_strs _ [txt "eeh"; _; _; _])).
  set (B4 := eqb (prefer_long P) _ && _). set (B5 := eqb (prefer_x P) _).
  set (B6 := eqb (prefer_accented P) _ && _). set (B7 := eqb (prefer_double_s P) _ && _).
  set (B9 := eqb (prefer_deprecated P) (in_strs _ [_; txt "bb"; _])).
  generalize B1 B2 B3 B4 B5 B6 B7 B9. clear. intros B1 B2 B3 B4 B5 B6 B7 B9.
  generalize (agrees (prefer_classic P) (classic n)) (agrees (prefer_deprecated P) (ends_in (txt "s") n))
    (agrees (prefer_deprecated P) (In n [txt "eeh"; txt "ases"; txt "aseh"; txt "aeh"]))
    (agrees (prefer_long P) (substring (txt "-") n) /\ (prefer_long P = false -> agrees (prefer_x P) (ends_in (txt "x") n)))
    (agrees (prefer_accented P) (substring (txt "é") n) /\ agrees (prefer_x P) (ends_in (txt "x") n))
    (agrees (prefer_double_s P) (substring (txt "ss") n) /\
       agrees (prefer_classic P) (~ (substring (txt "ee") n \/ substring (txt "ae") n)))
    (agrees (prefer_deprecated P) (In n [txt "ases"; txt "bb"; txt "heses"]))
    (agrees (prefer_x P) (ends_in (txt "x") n)).
  intros C1 C2 C3 C4 C6 C7 C9 C5 A1 A2 A3 A4 A5 A6 A7 A9.
  destruct (str_eqb_spec l (txt "nederlands")) as [E1|E1];
  [subst l; rewrite A1; split; [intros H; conjs; intros X; try exact H; try discriminate X; destruct X as [X|X]; discriminate X|intuition]|].
  destruct (str_eqb_spec l (txt "catalan")) as [E2|E2];
  [subst l; rewrite A2; split; [intros H; conjs; intros X; try exact H; try discriminate X; destruct X as [X|X]; discriminate X|intuition]|].
  destruct (str_eqb_spec l (txt "deutsch")) as [E3|E3];
  [subst l; rewrite A3; split; [intros H; conjs; intros X; try exact H; try discriminate X; destruct X as [X|X]; discriminate X|intuition]|].
  destruct (str_eqb_spec l (txt "english")) as [E4|E4];
  [subst l; rewrite A4; split; [intros H; conjs; intros X; try exact H; try discriminate X; destruct X as [X|X]; discriminate X|intuition]|].
  destruct (str_eqb_spec l (txt "espanol")) as [E5|E5];
  [subst l; cbn [orb]; rewrite A5; split; [intros H; conjs; intros X; try exact H; try discriminate X|intuition]|].
  destruct (str_eqb_spec l (txt "español")) as [E5'|E5'];
  [subst l; cbn [orb]; rewrite A5; split; [intros H; conjs; intros X; try exact H; try discriminate X|intuition]|].
  cbn [orb].
  destruct (str_eqb_spec l (txt "français")) as [E6|E6];
  [subst l; rewrite A6; split; [intros H; conjs; intros X; try exact H; try discriminate X; destruct X as [X|X]; discriminate X|intuition]|].
  destruct (str_eqb_spec l (txt "norsk")) as [E7|E7];
  [subst l; rewrite A7; split; [intros H; conjs; intros X; try exact H; try discriminate X; destruct X as [X|X]; discriminate X|intuition]|].
  destruct (str_eqb_spec l (txt "suomi")) as [E8|E8];
  [subst l; rewrite A9; split; [intros H; conjs; intros X; try exact H; try discriminate X; destruct X as [X|X]; discriminate X|intuition]|].
  split; [intros _|reflexivity]. conjs; intros X; try congruence. destruct X; congruence.
Qed.

Lemma suitable_matches P l : styled (language P) -> language P <> txt "norsk" ->
  (exists n, In n l /\ match_bool P n = true) -> exists n, suitable P l = Some n /\ match_bool P n = true.
Proof.
  intros ST NN H. unfold suitable, match_bool in *.
  destruct (str_eqb_spec (language P) (txt "nederlands")); [now apply first_name_matches|].
  destruct (str_eqb_spec (language P) (txt "catalan")); [now apply first_name_matches|].
  destruct (str_eqb_spec (language P) (txt "deutsch")); [now apply first_name_matches|].
  destruct (str_eqb_spec (language P) (txt "english")).
  { unfold s_english. destruct (prefer_long P); cbn [orb andb] in *.
    - destruct (first_name_matches (contains (txt "-")) l) as (m & M1 & M2).
      { destruct H as (n' & A & B). exists n'. split; [exact A|]. rewrite andb_true_r in B. apply eqb_prop in B. now symmetry. }
      rewrite M1. exists m. split; [reflexivity|]. now rewrite M2.
    - destruct (first_name_matches (fun n => negb (contains (txt "-") n) && eqb (prefer_x P) (endswith (txt "x") n)) l) as (m & M1 & M2).
      { destruct H as (n' & A & B). exists n'. split; [exact A|].
        destruct (contains (txt "-") n'); [discriminate B|exact B]. }
      exists m. split; [exact M1|]. destruct (contains (txt "-") m); [discriminate M2|exact M2]. }
  destruct (str_eqb_spec (language P) (txt "espanol")); [now apply first_name_matches|].
  destruct (str_eqb_spec (language P) (txt "español")); [now apply first_name_matches|]. cbn [orb] in *.
  destruct (str_eqb_spec (language P) (txt "français")).
  { destruct (two_stage_matches (fun n => eqb (prefer_accented P) (contains (txt "é") n))
                (fun n => eqb (prefer_x P) (endswith (txt "x") n)) l) as (m & M1 & M2 & M3).
    { destruct H as (n' & A & B). apply andb_prop in B. exists n'. tauto. }
    exists m. split; [exact M1|]. now rewrite M2, M3. }
  destruct (str_eqb_spec (language P) (txt "norsk")); [contradiction|].
  destruct (str_eqb_spec (language P) (txt "suomi")); [now apply first_name_matches|].
  exfalso. unfold styled in ST. cbn [In] in ST.
  repeat (destruct ST as [ST|ST]; [congruence|]). exact ST.
Qed.

Lemma choose_matches P l : styled (language P) -> language P <> txt "norsk" -> ~ In [] l ->
  (exists n, In n l /\ matches P n) -> matches P (choose_name P l) /\ In (choose_name P l) l.
Proof.
  intros ST NN NE (n & I & M).
  split; [|apply choose_in; intros ->; destruct I].
  apply match_bool_iff. apply match_bool_iff in M.
  destruct (suitable_matches P l ST NN (ex_intro _ n (conj I M))) as (m & S & MM).
  pose proof (suitable_in _ _ _ S) as SI.
  unfold choose_name. destruct l as [|x [|y r]]; [destruct I|destruct I as [->|[]]; exact M|].
  rewrite S. destruct m as [|c m]; [contradiction|exact MM].
Qed.

(** * C17 *)

Lemma vote_fold {A} (yes no : A -> bool) l v :
  fold_left (fun v n => vote v (yes n) (no n)) l v =
  if existsb yes l then Some true else if truthy v then Some true
  else if existsb no l then Some false else v.
Proof.
  revert v. induction l as [|x r IH]; intros v; cbn [fold_left existsb].
  - destruct v as [[|]|]; reflexivity.
  - rewrite IH. unfold vote. destruct (yes x); cbn [orb truthy].
    + destruct (existsb yes r); reflexivity.
    + destruct (existsb yes r); [reflexivity|].
      destruct v as [[|]|]; cbn [truthy negb andb]; destruct (no x), (existsb no r); reflexivity.
Qed.

Definition d_none := Distilled None None None None None None.

(** Every name is a name of the language or unknown altogether. *)
Definition one_language (T : tables) (t : table) (names : list str) : Prop :=
  forall n, In n names -> In n (map fst t) \/ ~ In n (map fst T).

Lemma dget_none {V} (d : dict str V) n : ~ In n (map fst d) -> dget str_eqb d n = None.
Proof.
  intros H. destruct (dget str_eqb d n) eqn:E; [|reflexivity]. apply dget_str_in in E.
  exfalso. apply H. now apply (in_map fst) in E.
Qed.

Lemma dget_some_iff {V} (d : dict str V) n :
  match dget str_eqb d n with Some _ => true | None => false end = in_strs n (map fst d).
Proof.
  apply eq_true_iff_eq. rewrite in_strs_iff. split.
  - destruct (dget str_eqb d n) eqn:E; [|discriminate]. intros _. apply dget_str_in in E. now apply (in_map fst) in E.
  - intros H. destruct (proj2 (dget_keys str_eqb d n)) as [v ->]; [|reflexivity].
    exists n. split; [exact H|apply str_eqb_refl].
Qed.

Lemma distill_loop_one T lang t names : one_language T t names -> forall d,
  distill_loop T lang t d names =
  fold_left (distill_name lang t) (filter (fun n => in_strs n (map fst t)) names) d.
Proof.
  intros H. induction names as [|n r IH]; intros d; [reflexivity|]. cbn [distill_loop filter].
  rewrite dget_some_iff. destruct (in_strs n (map fst t)) eqn:E.
  - cbn [fold_left]. apply IH. intros m Hm. apply H. now right.
  - destruct (H n (or_introl eq_refl)) as [C|C].
    + apply in_strs_iff in C. congruence.
    + rewrite (dget_none T n C). apply IH. intros m Hm. apply H. now right.
Qed.

Definition same_set {A} (a b : list A) : Prop := forall x, In x a <-> In x b.

Lemma existsb_same_set {A} (f : A -> bool) a b : same_set a b -> existsb f a = existsb f b.
Proof.
  intros H. apply eq_true_iff_eq. rewrite !existsb_exists. split; intros (x & I & F); exists x; (split; [now apply H|exact F]).
Qed.

Lemma vote_same_set {A} (yes no : A -> bool) a b v : same_set a b ->
  fold_left (fun v n => vote v (yes n) (no n)) a v = fold_left (fun v n => vote v (yes n) (no n)) b v.
Proof. intros H. rewrite !vote_fold. now rewrite !(existsb_same_set _ a b H). Qed.

Lemma fold_proj {A} (proj : distilled -> option bool) (step : distilled -> A -> distilled) (c : option bool -> A -> option bool) l :
  (forall d n, proj (step d n) = c (proj d) n) -> forall d, proj (fold_left step l d) = fold_left c l (proj d).
Proof. intros H. induction l as [|x r IH]; intros d; [reflexivity|]. cbn [fold_left]. now rewrite IH, H. Qed.

Lemma fold_const {A} l (v : option bool) : fold_left (fun v (_ : A) => v) l v = v.
Proof. now induction l. Qed.

Lemma distill_same_set lang t a b d : same_set a b ->
  fold_left (distill_name lang t) a d = fold_left (distill_name lang t) b d.
Proof.
  intros H.
  assert (E : forall p, In p [d_accented; d_classic; d_double_s; d_long; d_x; d_deprecated] ->
     p (fold_left (distill_name lang t) a d) = p (fold_left (distill_name lang t) b d)).
  { intros p Hp.
    set (fr := str_eqb lang (txt "français")). set (nl := str_eqb lang (txt "nederlands")).
    set (no := str_eqb lang (txt "norsk")). set (en := str_eqb lang (txt "english")).
    set (de := str_eqb lang (txt "deutsch")). set (fi := str_eqb lang (txt "suomi")).
    set (es := str_eqb lang (txt "espanol") || str_eqb lang (txt "español")).
    cbn [In] in Hp. destruct Hp as [<-|[<-|[<-|[<-|[<-|[<-|[]]]]]]].
    - rewrite !(fold_proj d_accented (distill_name lang t) (fun v n => if fr then vote v (contains (txt "é") n) (contains (txt "e") n) else v)) by reflexivity.
      destruct fr; [now apply vote_same_set|now rewrite !fold_const].
    - rewrite !(fold_proj d_classic (distill_name lang t) (fun v n => if nl || no then vote v (firstn2_in n [txt "es"; txt "as"]) (firstn2_in n [txt "ee"; txt "ae"]) else v)) by reflexivity.
      destruct (nl || no); [now apply vote_same_set|now rewrite !fold_const].
    - rewrite !(fold_proj d_double_s (distill_name lang t) (fun v n => if no then vote v (contains (txt "ss") n) (contains (txt "s") n) else v)) by reflexivity.
      destruct no; [now apply vote_same_set|now rewrite !fold_const].
    - rewrite !(fold_proj d_long (distill_name lang t) (fun v n => if en then vote v (contains (txt "-") n) (english_short t n) else v)) by reflexivity.
      destruct en; [now apply vote_same_set|now rewrite !fold_const].
    - rewrite !(fold_proj d_x (distill_name lang t) (fun v n => vote v (endswith (txt "x") n)
       ((endswith (txt "ss") n && (en || es)) || (endswith (txt "dd") n && fr)))) by reflexivity.
      now apply vote_same_set.
    - rewrite !(fold_proj d_deprecated (distill_name lang t) (fun v n => if de then vote v (in_strs n [txt "eeh"; txt "ases"; txt "aseh"; txt "aeh"])
                  (in_strs n [txt "eh"; txt "asas"; txt "asah"; txt "ah"])
     else if fi then vote v (in_strs n [txt "ases"; txt "bb"; txt "heses"])
                  (in_strs n [txt "asas"; txt "bes"]) else v)) by reflexivity.
      destruct de; [now apply vote_same_set|]. destruct fi; [now apply vote_same_set|now rewrite !fold_const]. }
  destruct (fold_left (distill_name lang t) a d) as [a1 a2 a3 a4 a5 a6], (fold_left (distill_name lang t) b d) as [b1 b2 b3 b4 b5 b6].
  f_equal; [apply (E d_accented)|apply (E d_classic)|apply (E d_double_s)|apply (E d_long)|apply (E d_x)|apply (E d_deprecated)]; cbn; tauto.
Qed.

Lemma filter_same_set {A} (f : A -> bool) a b : same_set a b -> same_set (filter f a) (filter f b).
Proof. intros H x. rewrite !filter_In, (H x). reflexivity. Qed.

Lemma distill_order T P t a b : lang_table T (language P) = Ok t -> one_language T t a -> same_set a b ->
  distill_preferences T P a = distill_preferences T P b.
Proof.
  intros TL O S. unfold distill_preferences. rewrite TL. cbn [bindr].
  rewrite (distill_loop_one T _ t a O).
  assert (O2 : one_language T t b) by (intros n Hn; apply O, S, Hn).
  rewrite (distill_loop_one T _ t b O2).
  now rewrite (distill_same_set _ _ _ _ _ (filter_same_set (fun n => in_strs n (map fst t)) a b S)).
Qed.

(** Evidence. *)
Lemma vote_evidence {A} (yes no : A -> bool) l b :
  fold_left (fun v n => vote v (yes n) (no n)) l None = Some b ->
  if b then exists n, In n l /\ yes n = true
  else (exists n, In n l /\ no n = true) /\ forall n, In n l -> yes n = false.
Proof.
  rewrite vote_fold. cbn [truthy]. destruct (existsb yes l) eqn:Y.
  - intros [= <-]. now apply existsb_exists in Y.
  - destruct (existsb no l) eqn:N; [|discriminate]. intros [= <-]. apply existsb_exists in N.
    split; [exact N|]. intros n Hn. destruct (yes n) eqn:F; [|reflexivity].
    rewrite <- Y. symmetry. apply existsb_exists. now exists n.
Qed.

Lemma odefault_changed (a b : bool) o : odefault a o = b -> a <> b -> o = Some b.
Proof. destruct o; cbn; congruence. Qed.

Lemma distill_evidence T P t names P' : lang_table T (language P) = Ok t -> one_language T t names ->
  distill_preferences T P names = Ok P' ->
  let known n := In n names /\ In n (map fst t) in
  language P' = language P /\
  (prefer_accented P <> prefer_accented P' ->
     if prefer_accented P' then exists n, known n /\ substring (txt "é") n
     else (exists n, known n /\ substring (txt "e") n) /\ forall n, known n -> ~ substring (txt "é") n) /\
  (prefer_classic P <> prefer_classic P' ->
     if prefer_classic P' then exists n, known n /\ In (firstn 2 n) [txt "es"; txt "as"]
     else (exists n, known n /\ In (firstn 2 n) [txt "ee"; txt "ae"]) /\
          forall n, known n -> ~ In (firstn 2 n) [txt "es"; txt "as"]) /\
  (prefer_double_s P <> prefer_double_s P' ->
     if prefer_double_s P' then exists n, known n /\ substring (txt "ss") n
     else (exists n, known n /\ substring (txt "s") n) /\ forall n, known n -> ~ substring (txt "ss") n) /\
  (prefer_x P <> prefer_x P' ->
     if prefer_x P' then exists n, known n /\ ends_in (txt "x") n
     else (exists n, known n /\ (ends_in (txt "ss") n \/ ends_in (txt "dd") n)) /\
          forall n, known n -> ~ ends_in (txt "x") n) /\
  (prefer_deprecated P <> prefer_deprecated P' ->
     if prefer_deprecated P'
     then exists n, known n /\ In n [txt "eeh"; txt "ases"; txt "aseh"; txt "aeh"; txt "bb"; txt "heses"]
     else exists n, known n /\ In n [txt "eh"; txt "asas"; txt "asah"; txt "ah"; txt "bes"]) /\
  (prefer_long P <> prefer_long P' ->
     if prefer_long P' then exists n, known n /\ substring (txt "-") n
     else forall n, known n -> ~ substring (txt "-") n).
Proof.
  intros TL O H known. unfold distill_preferences in H. rewrite TL in H. cbn [bindr] in H. injection H as <-.
  rewrite (distill_loop_one T _ t names O). set (ks := filter _ names).
  assert (K : forall n, In n ks <-> known n).
  { intros n. unfold ks, known. rewrite filter_In, in_strs_iff. reflexivity. }
  cbn [language prefer_accented prefer_classic prefer_double_s prefer_x prefer_long prefer_deprecated].
  assert (NC : forall s n, contains s n = false -> ~ substring s n).
  { intros s n H C. apply contains_iff in C. congruence. }
  split; [reflexivity|].
  split; [|split; [|split; [|split; [|split]]]]; intros C.
  - rewrite (fold_proj d_accented (distill_name (language P) t) (fun v n => if str_eqb (language P) (txt "français") then vote v (contains (txt "é") n) (contains (txt "e") n) else v)) in * by reflexivity.
    cbn [d_accented] in *. destruct (str_eqb (language P) (txt "français")); [|rewrite fold_const in C; cbn in C; congruence].
    destruct (fold_left _ ks None) as [b|] eqn:E; cbn [odefault] in *; [|congruence]. apply vote_evidence in E.
    destruct b.
    + destruct E as (n & A & B). exists n. split; [now apply K|now apply contains_iff].
    + destruct E as ((n & A & B) & E). split; [exists n; split; [now apply K|now apply contains_iff]|].
      intros m Hm. apply NC, E, K, Hm.
  - rewrite (fold_proj d_classic (distill_name (language P) t) (fun v n => if str_eqb (language P) (txt "nederlands") || str_eqb (language P) (txt "norsk") then vote v (firstn2_in n [txt "es"; txt "as"]) (firstn2_in n [txt "ee"; txt "ae"]) else v)) in * by reflexivity.
    cbn [d_classic] in *. destruct (_ || _); [|rewrite fold_const in C; cbn in C; congruence].
    destruct (fold_left _ ks None) as [b|] eqn:E; cbn [odefault] in *; [|congruence]. apply vote_evidence in E.
    destruct b.
    + destruct E as (n & A & B). exists n. split; [now apply K|now apply in_strs_iff].
    + destruct E as ((n & A & B) & E). split; [exists n; split; [now apply K|now apply in_strs_iff]|].
      intros m Hm X. apply in_strs_iff in X. unfold firstn2_in in E. rewrite (E m) in X; [discriminate|now apply K].
  - rewrite (fold_proj d_double_s (distill_name (language P) t) (fun v n => if str_eqb (language P) (txt "norsk") then vote v (contains (txt "ss") n) (contains (txt "s") n) else v)) in * by reflexivity.
    cbn [d_double_s] in *. destruct (str_eqb (language P) (txt "norsk")); [|rewrite fold_const in C; cbn in C; congruence].
    destruct (fold_left _ ks None) as [b|] eqn:E; cbn [odefault] in *; [|congruence]. apply vote_evidence in E.
    destruct b.
    + destruct E as (n & A & B). exists n. split; [now apply K|now apply contains_iff].
    + destruct E as ((n & A & B) & E). split; [exists n; split; [now apply K|now apply contains_iff]|].
      intros m Hm. apply NC, E, K, Hm.
  - rewrite (fold_proj d_x (distill_name (language P) t) (fun v n => vote v (endswith (txt "x") n)
       ((endswith (txt "ss") n && (str_eqb (language P) (txt "english") || (str_eqb (language P) (txt "espanol") || str_eqb (language P) (txt "español")))) || (endswith (txt "dd") n && str_eqb (language P) (txt "français"))))) in * by reflexivity.
    cbn [d_x] in *.
    destruct (fold_left _ ks None) as [b|] eqn:E; cbn [odefault] in *; [|congruence]. apply vote_evidence in E.
    destruct b.
    + destruct E as (n & A & B). exists n. split; [now apply K|now apply endswith_iff].
    + destruct E as ((n & A & B) & E). split.
      * exists n. split; [now apply K|]. apply orb_true_iff in B. rewrite !andb_true_iff, !endswith_iff in B. tauto.
      * intros m Hm X. apply endswith_iff in X. rewrite (E m) in X; [discriminate|now apply K].
  - rewrite (fold_proj d_deprecated (distill_name (language P) t) (fun v n => if str_eqb (language P) (txt "deutsch") then vote v (in_strs n [txt "eeh"; txt "ases"; txt "aseh"; txt "aeh"])
                  (in_strs n [txt "eh"; txt "asas"; txt "asah"; txt "ah"])
     else if str_eqb (language P) (txt "suomi") then vote v (in_strs n [txt "ases"; txt "bb"; txt "heses"])
                  (in_strs n [txt "asas"; txt "bes"]) else v)) in * by reflexivity.
    cbn [d_deprecated] in *.
    destruct (str_eqb (language P) (txt "deutsch")); [|destruct (str_eqb (language P) (txt "suomi")); [|rewrite fold_const in C; cbn in C; congruence]];
    (destruct (fold_left _ ks None) as [b|] eqn:E; cbn [odefault] in *; [|congruence]; apply vote_evidence in E;
    destruct b; [destruct E as (n & A & B)|destruct E as ((n & A & B) & E)]; exists n; (split; [now apply K|]);
    apply in_strs_iff in B; cbn [In] in *; tauto).
  - rewrite (fold_proj d_long (distill_name (language P) t) (fun v n => if str_eqb (language P) (txt "english") then vote v (contains (txt "-") n) (english_short t n) else v)) in * by reflexivity.
    cbn [d_long] in *. destruct (str_eqb (language P) (txt "english")); [|rewrite fold_const in C; cbn in C; congruence].
    destruct (fold_left _ ks None) as [b|] eqn:E; cbn [odefault] in *; [|congruence]. apply vote_evidence in E.
    destruct b.
    + destruct E as (n & A & B). exists n. split; [now apply K|now apply contains_iff].
    + destruct E as (_ & E). intros m Hm. apply NC, E, K, Hm.
Qed.

(** * C18 *)

Definition known_language (T : tables) (l : str) : Prop := In l (map fst T).

Lemma language_set_ok T P l : known_language T l -> language_set T P l = Ok (set_language P l).
Proof.
  intros H. unfold language_set. pose proof (dget_some_iff T l) as E.
  apply in_strs_iff in H. unfold known_language in *. rewrite H in E. destruct (dget str_eqb T l); [reflexivity|discriminate].
Qed.

Lemma language_set_err T P l : ~ known_language T l -> language_set T P l = Err KeyError.
Proof. intros H. unfold language_set. now rewrite dget_none. Qed.

Definition seen_nodes {A} (nodes : list (walked A)) (init : str) : list (A * str) :=
  flat_map (fun i => match nth_error nodes i with
                     | Some w => match sets w with None => [(node_of w, last_set (firstn i nodes) init)] | Some _ => [] end
                     | None => []
                     end) (seq 0 (List.length nodes)).

Lemma seen_nodes_cons {A} (w : walked A) r init : seen_nodes (w :: r) init =
  (match sets w with None => [(node_of w, init)] | Some _ => [] end) ++
  seen_nodes r (match sets w with Some s => s | None => init end).
Proof.
  unfold seen_nodes. cbn [List.length seq flat_map nth_error firstn last_set]. f_equal.
  rewrite <- seq_shift, flat_map_concat_map, map_map, <- flat_map_concat_map.
  apply flat_map_ext. intros i. cbn [nth_error firstn last_set]. reflexivity.
Qed.

Lemma follow_language_seen {A} T (nodes : list (walked A)) : forall P,
  (forall w s, In w nodes -> sets w = Some s -> known_language T s) ->
  follow_language T P nodes = (seen_nodes nodes (language P), Ok (set_language P (last_set nodes (language P)))).
Proof.
  induction nodes as [|w r IH]; intros P H.
  - cbn. destruct P; reflexivity.
  - rewrite seen_nodes_cons. cbn [follow_language last_set].
    assert (Hr : forall w s, In w r -> sets w = Some s -> known_language T s) by (intros; eapply H; [right|]; eassumption).
    destruct w as [[[|c s]|] n|n]; cbn [sets node_of app].
    + rewrite IH by exact Hr. reflexivity.
    + rewrite language_set_ok by (eapply H; [now left|reflexivity]). rewrite IH by exact Hr. reflexivity.
    + rewrite IH by exact Hr. reflexivity.
    + rewrite IH by exact Hr. reflexivity.
Qed.

Lemma follow_language_unknown {A} T (nodes r : list (walked A)) w s : forall P,
  (forall w s, In w nodes -> sets w = Some s -> known_language T s) ->
  sets w = Some s -> ~ known_language T s ->
  follow_language T P (nodes ++ w :: r) = (seen_nodes nodes (language P), Err KeyError).
Proof.
  induction nodes as [|v nodes IH]; intros P H E U.
  - cbn [app follow_language]. destruct w as [[[|c s']|] n|n]; cbn [sets] in E; try discriminate. injection E as <-.
    rewrite language_set_err by exact U. reflexivity.
  - rewrite seen_nodes_cons. cbn [app follow_language].
    assert (Hr : forall w s, In w nodes -> sets w = Some s -> known_language T s) by (intros; eapply H; [right|]; eassumption).
    destruct v as [[[|c s']|] n|n]; cbn [sets node_of app].
    + now rewrite (IH P Hr E U).
    + rewrite language_set_ok by (eapply H; [now left|reflexivity]). rewrite (IH _ Hr E U). reflexivity.
    + now rewrite (IH P Hr E U).
    + now rewrite (IH P Hr E U).
Qed.

(** find_language, walking backwards, finds what follow_language would have set. *)
Definition lang_attrs {A} (nodes : list (walked A)) : list (option str) :=
  flat_map (fun w => match w with WLang l _ => [l] | WOther _ => [] end) nodes.

Lemma find_language_last {A} T (nodes : list (walked A)) : forall P,
  (forall w s, In w nodes -> sets w = Some s -> known_language T s) ->
  find_language T P (rev (lang_attrs nodes)) = Ok (set_language P (last_set nodes (language P))).
Proof.
  induction nodes as [|w nodes IH] using rev_ind; intros P H.
  - cbn. destruct P; reflexivity.
  - assert (L : forall init, last_set (nodes ++ [w]) init = match sets w with Some s => s | None => last_set nodes init end).
    { clear. induction nodes as [|v r IH]; intros init; cbn [app last_set]; [reflexivity|]. apply IH. }
    rewrite L. unfold lang_attrs in *. rewrite flat_map_app, rev_app_distr. cbn [flat_map app].
    assert (Hr : forall w s, In w nodes -> sets w = Some s -> known_language T s).
    { intros v s Hv. apply H. apply in_or_app. now left. }
    destruct w as [[[|c s]|] n|n]; cbn [sets app rev find_language].
    + apply IH, Hr.
    + apply language_set_ok. apply (H (WLang (Some (c :: s)) n)); [apply in_or_app; right; now left|reflexivity].
    + apply IH, Hr.
    + apply IH, Hr.
Qed.

(** * C19 *)

Definition has_names (t : table) (names : list str) : Prop :=
  forall n, In n names -> ~ In n [txt "r"; txt "R"; txt "s"; txt "q"] -> In n (map fst t).

(** The frequently used and the exotic languages exist; languages with the
    same table object have the same table. *)
Definition languages_ok (T : tables) : Prop :=
  tables_ok T /\ (forall l, In l (ubiquitous ++ exotic) -> In l (map fst T)) /\
  (forall l1 l2 i t1 t2, In (l1, (i, t1)) T -> In (l2, (i, t2)) T -> t1 = t2).

Lemma map_res_ok {A B} (f : A -> res B) l : (forall a, In a l -> exists b, f a = Ok b) ->
  exists bs, map_res f l = Ok bs /\ forall b, In b bs <-> exists a, In a l /\ f a = Ok b.
Proof.
  induction l as [|a r IH]; intros H.
  - exists []. split; [reflexivity|]. intros b. split; [intros []|intros (a & [] & _)].
  - destruct (H a (or_introl eq_refl)) as [b Hb]. destruct IH as (bs & E & S); [intros x Hx; apply H; now right|].
    exists (b :: bs). cbn [map_res]. rewrite Hb. cbn [bindr]. rewrite E. cbn [bindr]. split; [reflexivity|].
    intros c. cbn [In]. rewrite S. split.
    + intros [<-|(x & I & X)]; [exists a; split; [now left|exact Hb]|exists x; split; [now right|exact X]].
    + intros (x & [->|I] & X); [left; congruence|right; now exists x].
Qed.

Lemma others_spec T : forall seen,
  (forall l, In l (others T seen) -> exists i t, In (l, (i, t)) T /\ ~ In i seen) /\
  (forall l i t, In (l, (i, t)) T -> ~ In i seen -> exists l' t', In l' (others T seen) /\ In (l', (i, t')) T) /\
  (NoDup (map fst T) -> NoDup (others T seen)).
Proof.
  induction T as [|[l [i t]] T IH]; intros seen; cbn [others].
  - split; [intros l []|]. split; [intros l i t []|intros _; constructor].
  - assert (X : existsb (Nat.eqb i) seen = true <-> In i seen).
    { rewrite existsb_exists. split.
      - intros (j & J & E). apply Nat.eqb_eq in E. now subst.
      - intros J. exists i. split; [exact J|apply Nat.eqb_refl]. }
    destruct (existsb (Nat.eqb i) seen) eqn:S.
    + destruct (IH seen) as (A & B & C). split; [|split].
      * intros l' H. destruct (A l' H) as (j & t' & J & N). exists j, t'. split; [now right|exact N].
      * intros l' j t' [H|H] N.
        -- injection H as <- <- <-. exfalso. apply N. now apply X.
        -- destruct (B l' j t' H N) as (l2 & t2 & P & Q). exists l2, t2. split; [exact P|now right].
      * cbn [map fst]. intros ND. inversion ND; subst. now apply C.
    + destruct (IH (i :: seen)) as (A & B & C). split; [|split].
      * intros l' [<-|H]; [exists i, t; split; [now left|intros J; apply X in J; congruence]|].
        destruct (A l' H) as (j & t' & J & N). exists j, t'. split; [now right|]. intros N'. apply N. now right.
      * intros l' j t' [H|H] N.
        -- injection H as <- <- <-. exists l, t. split; now left.
        -- destruct (Nat.eq_dec i j) as [<-|NE]; [exists l, t; split; now left|].
           destruct (B l' j t' H) as (l2 & t2 & P & Q); [intros [J|J]; congruence|].
           exists l2, t2. split; now right.
      * cbn [map fst]. intros ND. inversion ND as [|? ? NI ND']; subst. constructor; [|now apply C].
        intros H. destruct (A l H) as (j & t' & J & _). apply NI. now apply (in_map fst) in J.
Qed.

Lemma nodup_ue : NoDup (ubiquitous ++ exotic).
Proof.
  repeat constructor; cbn [In app ubiquitous exotic]; intros H;
    repeat (destruct H as [H|H]; [discriminate H|]); exact H.
Qed.

Lemma determine_spec T names : languages_ok T ->
  exists ls, determine_language T names = Ok ls /\ NoDup ls /\
    (forall l, In l ls -> exists i t, In (l, (i, t)) T /\ has_names t names) /\
    (forall l i t, In (l, (i, t)) T -> has_names t names -> exists l', In l' ls /\ In (l', (i, t)) T).
Proof.
  intros ((D & _) & UE & ID). unfold determine_language, langs.
  assert (TI : forall l, In l (ubiquitous ++ exotic) -> exists i, table_id T l = Ok i).
  { intros l H. apply UE in H. apply in_map_iff in H. destruct H as ([l' [i t]] & E & I). cbn in E. subst l'.
    exists i. unfold table_id. now rewrite (dget_str_unique _ _ _ D I). }
  destruct (map_res_ok (table_id T) _ TI) as (seen & -> & S). cbn [bindr].
  destruct (others_spec T seen) as (O1 & O2 & O3).
  set (names' := filter _ names).
  set (good := fun l => match dget str_eqb T l with Some (_, t) => forallb (fun n => in_strs n (map fst t)) names' | None => false end).
  assert (G : forall l i t, In (l, (i, t)) T -> good l = true <-> has_names t names).
  { intros l i t I. unfold good. rewrite (dget_str_unique _ _ _ D I). rewrite forallb_forall. unfold has_names, names'.
    split; intros H n.
    - intros N1 N2. apply in_strs_iff, H, filter_In. split; [exact N1|]. apply negb_true_iff.
      destruct (in_strs n _) eqn:E; [|reflexivity]. apply in_strs_iff in E. contradiction.
    - intros N. apply filter_In in N. destruct N as [N1 N2]. apply in_strs_iff, H; [exact N1|].
      intros C. apply in_strs_iff in C. rewrite C in N2. discriminate. }
  set (ls := ubiquitous ++ sort_by str_leb (others T seen) ++ exotic).
  assert (PL : Permutation ls ((ubiquitous ++ exotic) ++ others T seen)).
  { unfold ls. rewrite (sort_perm str_leb (others T seen)). rewrite <- app_assoc. apply Permutation_app_head, Permutation_app_comm. }
  assert (IDU : forall l i t, In (l, (i, t)) T -> In l (ubiquitous ++ exotic) -> In i seen).
  { intros l i t I U. apply S. exists l. split; [exact U|]. unfold table_id. now rewrite (dget_str_unique _ _ _ D I). }
  assert (ND : NoDup ls).
  { apply (Permutation_NoDup (Permutation_sym PL)). 
    assert (Y : forall a b : list str, NoDup a -> NoDup b -> (forall x, In x a -> ~ In x b) -> NoDup (a ++ b)).
    { clear. induction a as [|x a IH]; intros b Ha Hb Hd; [exact Hb|]. inversion Ha; subst. cbn [app]. constructor.
      - intros I. apply in_app_or in I. destruct I as [I|I]; [contradiction|]. apply (Hd x); [now left|exact I].
      - apply IH; [assumption|assumption|]. intros y Hy. apply Hd. now right. }
    apply Y; [apply nodup_ue|now apply O3|].
    intros l U H. destruct (O1 l H) as (i & t & I & N). apply N. eapply IDU; eassumption. }
  exists (filter good ls). split; [reflexivity|]. split; [now apply NoDup_filter|]. split.
  - intros l H. apply filter_In in H. destruct H as [H GL].
    unfold good in GL. destruct (dget str_eqb T l) as [[i t]|] eqn:E; [|discriminate].
    apply dget_str_in in E. exists i, t. split; [exact E|]. apply (G l i t E). unfold good.
    now rewrite (dget_str_unique _ _ _ D E).
  - intros l i t I H. 
    assert (X : exists l' t', In l' ls /\ In (l', (i, t')) T).
    { destruct (in_dec Nat.eq_dec i seen) as [J|J].
      - apply S in J. destruct J as (u & U & TU). unfold table_id in TU.
        destruct (dget str_eqb T u) as [[j tu]|] eqn:E; [|discriminate]. injection TU as ->.
        apply dget_str_in in E. exists u, tu. split; [|exact E].
        apply (Permutation_in _ (Permutation_sym PL)), in_or_app. now left.
      - destruct (O2 l i t I J) as (l' & t' & A & B). exists l', t'. split; [|exact B].
        apply (Permutation_in _ (Permutation_sym PL)), in_or_app. now right. }
    destruct X as (l' & t' & A & B). assert (t' = t) by (eapply ID; eassumption). subst t'.
    exists l'. split; [|exact B]. apply filter_In. split; [exact A|]. now apply (G l' i t B).
Qed.
