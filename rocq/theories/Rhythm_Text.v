(** Removing durations and the written text. *)
From Coq Require Import List ZArith QArith Bool Lia.
From Verif Require Import Base Rhythm_Model Rhythm_Spec Rhythm_Proofs.
Import ListNotations.
Open Scope nat_scope.

Fixpoint texts (l : list rn) : list token := match l with [] => [] | c :: r => text c ++ texts r end.
Fixpoint texts_na (l : list rn) : list token := match l with [] => [] | c :: r => (if is_art (kind_of c) then [] else text c) ++ texts_na r end.
Definition tdur (durs : list dnode) : token := match durs with [] => Bare | _ => Other end.
Lemma text_eq k b durs kids : text (RN k b durs kids) =
  match k with
  | KComment => []
  | KText | KArticulations => [Other]
  | KUnpitched => Only :: texts kids
  | KDurable | KLyricItem => if duration_only (RN k b durs kids) then Only :: texts kids
      else Other :: texts_na kids ++ tdur durs :: (if existsb (fun c => is_art (kind_of c)) kids then [Other] else [])
  | KSkip | KTempo | KHandle => Other :: (match durs with [] => [] | _ => [Other] end) ++ texts kids
  | KOther head tail => (if head then [Other] else []) ++ texts kids ++ (if tail then [Other] else [])
  end.
Proof. destruct k; reflexivity. Qed.
Fixpoint walls (l : list rn) : Prop := match l with [] => True | c :: r => walled c /\ walls r end.
Lemma walled_eq k b durs kids : walled (RN k b durs kids) =
  ((match k with
       | KDurable | KUnpitched | KLyricItem => Forall (fun c => is_durable (kind_of c) = false) kids
       | KOther _ tail => followed tail kids
       | _ => followed false kids
       end) /\ walls kids).
Proof. reflexivity. Qed.

Definition ends_bare (l : list token) : Prop := last l Other = Bare.
Definition starts_only (l : list token) : Prop := hd Other l = Only.
Lemma last_app {A} (a b : list A) d : b <> [] -> last (a ++ b) d = last b d.
Proof.
  intros N. induction a as [|x a IH]; [reflexivity|]. cbn [app]. rewrite <- IH. destruct (a ++ b) eqn:E; [|reflexivity].
  apply app_eq_nil in E. destruct E as [_ E]. contradiction.
Qed.
Lemma safe_app a : forall b, safe (a ++ b) <-> safe a /\ safe b /\ ~ (ends_bare a /\ starts_only b).
Proof.
  induction a as [|x a IH]; intros b.
  - cbn. unfold ends_bare. cbn. split; [|tauto]. intros H. repeat split; auto. intros [Z _]. discriminate.
  - cbn [app safe]. rewrite IH. destruct a as [|y a].
    + cbn [app safe]. unfold ends_bare. cbn [last]. destruct x; destruct b as [|[] b]; cbn [starts_only hd]; unfold starts_only; cbn; intuition (try congruence; try discriminate).
    + cbn [app]. assert (ends_bare (x :: y :: a) <-> ends_bare (y :: a)) as -> by (unfold ends_bare; reflexivity). tauto.
Qed.
Lemma ends_app a b : ends_bare (a ++ b) <-> match b with [] => ends_bare a | _ => ends_bare b end.
Proof. destruct b as [|y b]; [rewrite app_nil_r; reflexivity|]. unfold ends_bare. rewrite last_app by discriminate. reflexivity. Qed.

(** A durable that ends without a duration. *)
Definition bare_end (c : rn) : bool :=
  match c with
  | RN KDurable _ [] kids | RN KLyricItem _ [] kids => negb (duration_only c) && negb (existsb (fun c => is_art (kind_of c)) kids)
  | _ => false
  end.
Fixpoint sibs (l : list rn) : Prop :=
  match l with
  | [] => True
  | c :: r => (bare_end c = true -> match r with m :: _ => duration_only m = false | [] => True end) /\ sibs r
  end.
Definition opaque (k : kind) : bool := match k with KText | KArticulations | KComment => true | _ => false end.
Fixpoint sibsafe (n : rn) : Prop :=
  match n with RN k _ _ kids => if opaque k then True else sibs kids /\ (fix go (l : list rn) : Prop := match l with [] => True | c :: r => sibsafe c /\ go r end) kids end.
Fixpoint sibsafes (l : list rn) : Prop := match l with [] => True | c :: r => sibsafe c /\ sibsafes r end.
Lemma sibsafe_eq k b durs kids : sibsafe (RN k b durs kids) = if opaque k then True else (sibs kids /\ sibsafes kids).
Proof. reflexivity. Qed.

Lemma visible_text m : visible m = true -> text m <> [] /\ (starts_only (text m) <-> duration_only m = true).
Proof.
  destruct m as [k b d kids]. unfold visible. cbn [kind_of]. rewrite text_eq. unfold starts_only. intros V.
  destruct k; try discriminate; try (split; [discriminate|]; cbn; split; discriminate).
  - split; [discriminate|]. cbn. tauto.
  - destruct (duration_only _); split; try discriminate; cbn; split; auto; discriminate.
  - cbn in V. subst. split; [discriminate|]. cbn. split; discriminate.
Qed.

Lemma ends_bare_text n : walled n -> (ends_bare (text n) -> is_durable (kind_of n) = true) /\ (is_durable (kind_of n) = true -> (ends_bare (text n) <-> bare_end n = true)).
Proof.
  induction n as [k b d kids IH] using rn_ind2. rewrite walled_eq. intros [W K].
  (* children that end bare *)
  assert (KE : forall tail, followed tail kids -> tail = false -> ~ ends_bare (texts kids)).
  { clear W. intros tail Fo ->. induction kids as [|c r IHr]; [unfold ends_bare; cbn; discriminate|]. cbn [texts followed walls] in *. destruct Fo as [F1 F2], K as [K1 K2].
    specialize (IHr (Forall_inv_tail IH) K2 F2). intros E. apply ends_app in E. destruct (texts r) eqn:T; [|exact (IHr E)].
    destruct (Forall_inv IH K1) as [A _]. specialize (F1 (A E)). destruct r as [|m r]; [discriminate|].
    destruct (visible_text m F1) as [NE _]. cbn [texts] in T. apply app_eq_nil in T. destruct T. contradiction. }
  assert (KN : Forall (fun c => is_durable (kind_of c) = false) kids -> ~ ends_bare (texts kids)).
  { intros Fa. apply (KE false); [|reflexivity]. clear -Fa. induction Fa as [|c r E F IH]; [exact Logic.I|]. cbn. split; [|exact IH]. congruence. }
  assert (EC : forall t l, t <> Bare -> (ends_bare (t :: l) <-> ends_bare l)).
  { intros t l N. unfold ends_bare. destruct l; [cbn; split; [contradiction|discriminate]|reflexivity]. }
  assert (DL : forall k, (match k with KDurable | KLyricItem => true | _ => false end) = true -> Forall (fun c => is_durable (kind_of c) = false) kids ->
    let l := if duration_only (RN k b d kids) then Only :: texts kids else Other :: texts_na kids ++ tdur d :: (if existsb (fun c => is_art (kind_of c)) kids then [Other] else []) in
    (ends_bare l -> true = true) /\ (true = true -> (ends_bare l <-> bare_end (RN k b d kids) = true))).
  { intros k' KK Fa l. split; [auto|]. intros _. unfold l.
    assert (BE : bare_end (RN k' b d kids) = match d with [] => negb (duration_only (RN k' b d kids)) && negb (existsb (fun c => is_art (kind_of c)) kids) | _ => false end).
    { destruct k'; try discriminate; destruct d; reflexivity. }
    rewrite BE. destruct (duration_only (RN k' b d kids)).
    - rewrite EC by discriminate. cbn [negb andb]. split; [intros E; exfalso; exact (KN Fa E)|]. destruct d; discriminate.
    - change (Other :: texts_na kids ++ ?x) with ((Other :: texts_na kids) ++ x). rewrite ends_app. cbn [negb andb].
      destruct d as [|d0 d']; destruct (existsb _ kids); cbn; unfold ends_bare; cbn; split; congruence. }
  rewrite text_eq. cbn [kind_of]. destruct k; cbn [is_durable].
  - apply DL; [reflexivity|exact W].
  - split; [auto|]. intros _. rewrite EC by discriminate. cbn [bare_end]. split; [intros E; exfalso; exact (KN W E)|]. destruct d; discriminate.
  - split; [auto|]. intros _. rewrite EC by discriminate. cbn [bare_end]. split; [|destruct d; discriminate]. intros E. exfalso.
    destruct d as [|d0 d]; cbn [app] in E; [|rewrite EC in E by discriminate]; exact (KE false W eq_refl E).
  - apply DL; [reflexivity|exact W].
  - split; [unfold ends_bare; cbn; discriminate|discriminate].
  - split; [unfold ends_bare; cbn; discriminate|discriminate].
  - split; [|discriminate]. rewrite EC by discriminate. intros E. exfalso. destruct d as [|d0 d]; cbn [app] in E; [|rewrite EC in E by discriminate]; exact (KE false W eq_refl E).
  - split; [|discriminate]. rewrite EC by discriminate. intros E. exfalso. destruct d as [|d0 d]; cbn [app] in E; [|rewrite EC in E by discriminate]; exact (KE false W eq_refl E).
  - split; [unfold ends_bare; cbn; discriminate|discriminate].
  - split; [|discriminate]. intros E. exfalso. rewrite app_assoc in E. apply ends_app in E. destruct tail; [cbn in E; discriminate|].
    apply ends_app in E. destruct (texts kids) eqn:T; [destruct head; cbn in E; discriminate|]. exact (KE false W eq_refl E).
Qed.

Lemma texts_safe tail l : followed tail l -> walls l -> Forall (fun c => safe (text c) <-> sibsafe c) l -> (safe (texts l) <-> sibs l /\ sibsafes l).
Proof.
  induction l as [|c r IH]; intros F W A; [cbn; tauto|]. cbn [texts sibs sibsafes followed walls] in *. destruct F as [F1 F2], W as [W1 W2].
  rewrite safe_app, (Forall_inv A), (IH F2 W2 (Forall_inv_tail A)).
  assert (E : ends_bare (text c) /\ starts_only (texts r) <-> bare_end c = true /\ match r with m :: _ => duration_only m = true | [] => False end).
  { destruct (ends_bare_text c W1) as [E1 E2]. split.
    - intros [X Y]. pose proof (E1 X) as D. apply (E2 D) in X. split; [exact X|]. specialize (F1 D). destruct r as [|m r]; [discriminate|].
      destruct (visible_text m F1) as [NE V]. cbn [texts] in Y. destruct (text m) as [|t0 tl]; [contradiction|]. apply V. exact Y.
    - intros [X Y]. assert (D : is_durable (kind_of c) = true). { destruct c as [k ? [|] ?]; destruct k; try discriminate; reflexivity. }
      split; [apply (E2 D); exact X|]. destruct r as [|m r]; [contradiction|]. destruct (visible_text m (F1 D)) as [NE V]. apply V in Y. cbn [texts].
      destruct (text m) as [|t0 tl]; [contradiction|]. exact Y. }
  rewrite E. destruct r as [|m r]; [tauto|].
  assert (N : ~ (bare_end c = true /\ duration_only m = true) <-> (bare_end c = true -> duration_only m = false)).
  { destruct (bare_end c), (duration_only m); intuition congruence. }
  rewrite N. tauto.
Qed.

Lemma text_safe n : walled n -> (safe (text n) <-> sibsafe n).
Proof.
  induction n as [k b d kids IH] using rn_ind2. rewrite walled_eq, sibsafe_eq. intros [W K].
  assert (A : Forall (fun c => safe (text c) <-> sibsafe c) kids).
  { clear W. induction kids as [|c r IHr]; constructor; [apply (Forall_inv IH); apply K|apply IHr; [apply (Forall_inv_tail IH)|apply K]]. }
  assert (SC : forall t l, t <> Bare -> (safe (t :: l) <-> safe l)). { intros t l N. cbn. destruct t; tauto. }
  assert (NF : Forall (fun c => is_durable (kind_of c) = false) kids -> followed false kids).
  { clear. intros Fa. induction Fa as [|c r E F IH]; [exact Logic.I|]. cbn. split; [|exact IH]. congruence. }
  assert (NB : Forall (fun c => is_durable (kind_of c) = false) kids -> ~ ends_bare (texts kids)).
  { intros Fa. clear -Fa K. induction kids as [|c r IHr]; [unfold ends_bare; cbn; discriminate|]. cbn [texts walls] in *. intros E. apply ends_app in E.
    destruct (texts r) eqn:T; [|apply IHr; [apply K|apply (Forall_inv_tail Fa)|exact E]]. destruct (ends_bare_text c (proj1 K)) as [E1 _]. specialize (E1 E). pose proof (Forall_inv Fa). cbn in *. congruence. }
  assert (DL : forall k, Forall (fun c => is_durable (kind_of c) = false) kids ->
    (safe (if duration_only (RN k b d kids) then Only :: texts kids else Other :: texts_na kids ++ tdur d :: (if existsb (fun c => is_art (kind_of c)) kids then [Other] else [])) <-> sibs kids /\ sibsafes kids)).
  { clear W. intros k' W. rewrite <- (texts_safe false kids (NF W) K A). destruct (duration_only _); [rewrite SC by discriminate; reflexivity|].
    change (Other :: texts_na kids ++ _) with ((Other :: texts_na kids) ++ tdur d :: (if existsb (fun c => is_art (kind_of c)) kids then [Other] else [])).
    rewrite safe_app.
    assert (S3 : safe (tdur d :: (if existsb (fun c => is_art (kind_of c)) kids then [Other] else []))). { destruct d; destruct (existsb _ kids); cbn; tauto. }
    assert (S4 : ~ starts_only (tdur d :: (if existsb (fun c => is_art (kind_of c)) kids then [Other] else []))). { unfold starts_only. destruct d; cbn; discriminate. }
    rewrite SC by discriminate.
    assert (S5 : safe (texts_na kids) <-> safe (texts kids)).
    { clear -W K. assert (X : (safe (texts_na kids) <-> safe (texts kids)) /\ (ends_bare (texts_na kids) -> False) /\ (ends_bare (texts kids) -> False)); [|tauto].
      induction kids as [|c r IHr]; [cbn; unfold ends_bare; cbn; intuition discriminate|]. cbn [texts texts_na walls] in *. destruct (IHr (proj2 K) (Forall_inv_tail W)) as (I1 & I2 & I3).
      assert (NC : ~ ends_bare (text c)). { destruct (ends_bare_text c (proj1 K)) as [E1 _]. intros E. specialize (E1 E). pose proof (Forall_inv W). cbn in *. congruence. }
      split; [|split].
      - rewrite !safe_app. destruct (is_art (kind_of c)) eqn:Ar.
        + assert (safe (text c)) by (destruct c as [k0 ? ? ?]; destruct k0; try discriminate; cbn; tauto). cbn. unfold ends_bare at 1. cbn. intuition discriminate.
        + tauto.
      - intros E. apply ends_app in E. destruct (texts_na r); [|exact (I2 E)]. destruct (is_art (kind_of c)); [unfold ends_bare in E; cbn in E; discriminate|exact (NC E)].
      - intros E. apply ends_app in E. destruct (texts r); [exact (NC E)|exact (I3 E)]. }
    rewrite S5. tauto. }
  rewrite text_eq. destruct k; cbn [opaque].
  - apply DL. exact W.
  - rewrite SC by discriminate. apply (texts_safe false); auto.
  - rewrite SC by discriminate. destruct d; cbn [app]; [|rewrite SC by discriminate]; apply (texts_safe false); auto.
  - apply DL. exact W.
  - cbn. tauto.
  - cbn. tauto.
  - rewrite SC by discriminate. destruct d; cbn [app]; [|rewrite SC by discriminate]; apply (texts_safe false); auto.
  - rewrite SC by discriminate. destruct d; cbn [app]; [|rewrite SC by discriminate]; apply (texts_safe false); auto.
  - cbn. tauto.
  - rewrite safe_app, safe_app, (texts_safe tail kids W K A).
    assert (S3 : forall x : bool, safe (if x then [Other] else [])) by (intros []; cbn; tauto).
    assert (S4 : ~ starts_only (if tail then [Other] else [])) by (unfold starts_only; destruct tail; cbn; discriminate).
    assert (S5 : ~ ends_bare (if head then [Other] else [])) by (unfold ends_bare; destruct head; cbn; discriminate).
    pose proof (S3 head). pose proof (S3 tail). tauto.
Qed.

(** Only durations that may be removed are removed. *)
Definition removed_only (x y : item) : Prop := i_durs y = [] -> i_durs x = [] \/ i_free x = true.

Lemma F2_app_inv {A} (R : A -> A -> Prop) a b c d : length a = length c -> Forall2 R (a ++ b) (c ++ d) -> Forall2 R a c /\ Forall2 R b d.
Proof.
  revert c. induction a as [|x a IH]; intros [|y c] L F; try discriminate; [split; [constructor|exact F]|].
  cbn in F. inversion F; subst. destruct (IH c ltac:(cbn in L; lia) H4). split; [constructor|]; assumption.
Qed.

Lemma duration_only_shape n n' : bare n = bare n' -> duration_only n = duration_only n'.
Proof. intros B. rewrite <- duration_only_bare, B. apply duration_only_bare. Qed.
Lemma sibsafe_kept inr n : forall n' path right right', bare n' = bare n -> option_map bare right' = option_map bare right ->
  Forall2 removed_only (durables inr path right n) (durables inr path right' n') -> sibsafe n -> sibsafe n'.
Proof.
  induction n as [k b d kids IH] using rn_ind2. intros [k' b' d' kids'] path right right' B R F. cbn [bare] in B. injection B as -> -> _ B.
  rewrite !sibsafe_eq. destruct (opaque k); [auto|]. rewrite !durables_eq in F. apply F2_app_inv in F; [|destruct (is_durable k); reflexivity]. destruct F as [_ F].
  clear d d' right right' R. revert kids' B F IH. generalize 0. induction kids as [|c r IHr]; intros i [|c' r'] B F IH [S1 S2]; try discriminate; [cbn; auto|].
  cbn [map] in B. injection B as B1 B2. cbn [flats sibs sibsafes] in *. destruct S1 as [S1 S3], S2 as [S2 S4].
  apply F2_app_inv in F; [|apply flat_length; congruence]. destruct F as [F1 F2].
  destruct (IHr (S i) r' B2 F2 (Forall_inv_tail IH) (conj S3 S4)) as [G1 G2].
  assert (HB : option_map bare (hd_error r') = option_map bare (hd_error r)) by (apply hd_bare; exact B2).
  split; [split; [|exact G1]|split; [|exact G2]].
  - intros BE. destruct r' as [|m' r']; [exact Logic.I|]. destruct r as [|m r]; [discriminate|]. cbn in HB. injection HB as HB.
    assert (DM : duration_only m' = duration_only m) by (apply duration_only_shape; exact HB). rewrite DM.
    destruct c as [k1 b1 d1 kids1], c' as [k2 b2 d2 kids2]. cbn [bare] in B1. pose proof B1 as B1'. injection B1 as -> -> _ BK.
    assert (E2 : d2 = []) by (destruct k1, d2; try discriminate; reflexivity). subst d2.
    assert (DU : is_durable k1 = true) by (destruct k1; try discriminate; reflexivity).
    rewrite !durables_eq, DU in F1. inversion F1 as [|? ? ? ? X Y]; subst. unfold removed_only in X. cbn [i_durs i_free] in X.
    assert (DO : duration_only (RN k1 b1 [] kids2) = duration_only (RN k1 b1 d1 kids1)). { apply duration_only_shape. cbn [bare]. rewrite DU, BK. reflexivity. }
    assert (AR : existsb (fun c => is_art (kind_of c)) kids2 = existsb (fun c => is_art (kind_of c)) kids1) by (rewrite <- (existsb_bare is_art kids2), BK; apply existsb_bare).
    destruct (X eq_refl) as [->|FR].
    + apply S1. destruct k1; try discriminate.
      * unfold bare_end in *. rewrite <- AR, <- DO. exact BE.
      * unfold bare_end in *. rewrite <- AR, <- DO. exact BE.
    + unfold removable in FR. cbn [kind_of kids_of hd_error] in FR. apply andb_prop in FR. destruct FR as [FR1 FR2]. apply andb_prop in FR1. destruct FR1 as [_ FR1].
      apply orb_prop in FR2. destruct FR2 as [FR2|FR2]; [|destruct (duration_only m); [discriminate|reflexivity]].
      destruct k1; try discriminate.
      * unfold bare_end in BE. rewrite AR, FR2 in BE. rewrite andb_false_r in BE. discriminate.
      * unfold bare_end in BE. rewrite AR, FR2 in BE. rewrite andb_false_r in BE. discriminate.
  - eapply (Forall_inv IH); [exact B1|exact HB|exact F1|exact S2].
Qed.
