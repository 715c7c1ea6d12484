(** Which durations are heard before and after an edit. *)
From Coq Require Import List ZArith QArith Bool Lia.
From Verif Require Import Base Duration_Model.
From Verif Require Import Rhythm_Model Rhythm_Spec Rhythm_Proofs Getter_Model Getter_Proofs.
From Verif Require Import Rhythm_Lists.
From Verif Require Getter_Spec Time_Model Play_Spec.
From Verif Require Import Rhythm_Props.
Import Play_Spec.
Import ListNotations.
Open Scope nat_scope.

Lemma event_sets k : event_class k = sets_previous k. Proof. destruct k; reflexivity. Qed.
(** One durable, after [before]. *)
Definition sound (before : list rn) (durs : list dnode) : Q * Q := match duration_scaling durs with Some d => d | None => previous_duration before end.
Fixpoint hear_g {A} (g : list rn -> list dnode -> A) (before : list rn) (n : rn) : list A :=
  match n with
  | RN k _ durs kids =>
      let inside := (fix go (before : list rn) (l : list rn) : list A := match l with [] => [] | c :: r => hear_g g before c ++ go (bwd c ++ before) r end) before kids in
      if event_class k then [g before durs] else match k with KSkip => g before durs :: inside | _ => inside end
  end.
Fixpoint hears_g {A} (g : list rn -> list dnode -> A) (before : list rn) (l : list rn) : list A := match l with [] => [] | c :: r => hear_g g before c ++ hears_g g (bwd c ++ before) r end.
Lemma hear_eq {A} (g : list rn -> list dnode -> A) before k b durs kids : hear_g g before (RN k b durs kids) = if event_class k then [g before durs] else match k with KSkip => g before durs :: hears_g g before kids | _ => hears_g g before kids end.
Proof.
  cbn [hear_g]. assert (E : forall before, (fix go (before : list rn) (l : list rn) : list A := match l with [] => [] | c :: r => hear_g g before c ++ go (bwd c ++ before) r end) before kids = hears_g g before kids).
  { induction kids as [|c r IH]; intros bf; [reflexivity|]. cbn [hears_g]. rewrite IH. reflexivity. }
  rewrite E. reflexivity.
Qed.
Notation hear := (hear_g sound).
Notation hears := (hears_g sound).
Fixpoint outers (p : list nat) (i : nat) (l : list rn) : list (list nat) := match l with [] => [] | c :: r => outermost (p ++ [i]) c ++ outers p (S i) r end.
Lemma outer_eq p k b durs kids : outermost p (RN k b durs kids) = if event_class k then [p] else match k with KSkip => p :: outers p 0 kids | _ => outers p 0 kids end.
Proof.
  cbn [outermost]. assert (E : forall i, (fix go (i : nat) (l : list rn) : list (list nat) := match l with [] => [] | c :: r => outermost (p ++ [i]) c ++ go (S i) r end) i kids = outers p i kids).
  { induction kids as [|c r IH]; intros i; [reflexivity|]. cbn [outers]. rewrite IH. reflexivity. }
  rewrite E. reflexivity.
Qed.
Lemma bwdl_snd l : forall p i, map snd (bwdl p i l) = bwds l /\ (forall c, In c l -> forall q, map snd (bwdp q c) = bwd c).
Proof.
  assert (B : forall n q, map snd (bwdp q n) = bwd n).
  { induction n as [k b d kids IH] using rn_ind2. intros q. rewrite bwdp_eq, bwd_eq. cbn [map snd]. f_equal. cbn [kids_of]. revert IH. generalize 0. induction kids as [|c r IHr]; intros i IH; [reflexivity|].
    cbn [bwdl bwds]. rewrite map_app, IHr by apply (Forall_inv_tail IH). rewrite (Forall_inv IH). reflexivity. }
  intros p i. split; [|intros c _ q; apply B]. revert i. induction l as [|c r IH]; intros i; [reflexivity|]. cbn [bwdl bwds]. rewrite map_app, IH, B. reflexivity.
Qed.
Definition at_path {A} (g : list rn -> list dnode -> A) (t : rn) (p : list nat) : A := g (map snd (backward t p)) (match node_at t p with Some n => durs_of n | None => [] end).
Lemma heard_hear {A} (g : list rn -> list dnode -> A) t : forall n p, node_at t p = Some n -> map (at_path g t) (outermost p n) = hear_g g (map snd (backward t p)) n.
Proof.
  induction n as [k b d kids IH] using rn_ind2. intros p N. rewrite outer_eq, hear_eq.
  assert (S1 : at_path g t p = g (map snd (backward t p)) d). { unfold at_path. rewrite N. reflexivity. }
  assert (KIDS : forall done rest, kids = done ++ rest -> map (at_path g t) (outers p (length done) rest) = hears_g g (bwds done ++ map snd (backward t p)) rest).
  { intros done rest. revert done. induction rest as [|c r IHr]; intros done E; [reflexivity|]. cbn [outers hears_g]. rewrite map_app.
    assert (NC : nth_error kids (length done) = Some c) by (rewrite E, nth_error_app2, Nat.sub_diag by lia; reflexivity).
    assert (ND : node_at t (p ++ [length done]) = Some c) by (rewrite node_at_snoc, N; exact NC).
    assert (IC : In c kids) by (eapply nth_error_In; exact NC). rewrite Forall_forall in IH. rewrite (IH c IC _ ND).
    rewrite (backward_snoc t p (length done) _ N) by (cbn [kids_of]; rewrite E, app_length; cbn; lia). cbn [kids_of]. rewrite map_app.
    rewrite (proj1 (bwdl_snd (firstn (length done) kids) p 0)). assert (firstn (length done) kids = done) as -> by (rewrite E, firstn_app, Nat.sub_diag, firstn_all; apply app_nil_r).
    f_equal. specialize (IHr (done ++ [c])). rewrite app_length, Nat.add_1_r in IHr. rewrite IHr by (rewrite <- app_assoc; exact E). f_equal.
    assert (BS : forall a, bwds (a ++ [c]) = bwd c ++ bwds a). { clear. induction a as [|x a IH]; cbn; [rewrite app_nil_r; reflexivity|]. rewrite IH, app_assoc. reflexivity. }
    rewrite BS, app_assoc. reflexivity. }
  specialize (KIDS [] kids eq_refl). cbn [length bwds app] in KIDS. destruct (event_class k); [cbn; rewrite S1; reflexivity|]. destruct k; try exact KIDS. cbn [map]. rewrite S1, KIDS. reflexivity.
Qed.
Lemma outer_node t : forall n p q, node_at t p = Some n -> In q (outermost p n) -> exists m, node_at t q = Some m.
Proof.
  induction n as [k b d kids IH] using rn_ind2. intros p q N. rewrite outer_eq.
  assert (KIDS : In q (outers p 0 kids) -> exists m, node_at t q = Some m).
  { assert (G : forall done l, kids = done ++ l -> In q (outers p (length done) l) -> exists m, node_at t q = Some m).
    { intros done l. revert done. induction l as [|c r IHr]; intros done E I; [contradiction|]. cbn [outers] in I. apply in_app_or in I. destruct I as [I|I].
      - assert (NC : nth_error kids (length done) = Some c) by (rewrite E, nth_error_app2, Nat.sub_diag by lia; reflexivity). rewrite Forall_forall in IH. apply (IH c (nth_error_In _ _ NC) (p ++ [length done]) q); [|exact I]. rewrite node_at_snoc, N. exact NC.
      - apply (IHr (done ++ [c])); [rewrite <- app_assoc; exact E|]. rewrite app_length, Nat.add_1_r. exact I. }
    apply (G [] kids eq_refl). }
  destruct (event_class k); [intros [<-|[]]; eauto|]. destruct k; try exact KIDS. intros [<-|I]; eauto.
Qed.
Lemma heard_eq t : heard t = hear [] t.
Proof.
  unfold heard. pose proof (heard_hear sound t t [] eq_refl) as E. cbn [backward backs map] in E. change (map snd (backward t [])) with (@nil rn) in E. rewrite <- E. apply map_ext_in. intros p I. destruct (outer_node t t [] p eq_refl I) as (m & N). unfold at_path, Getter_Spec.effective, sound. rewrite N. destruct (durs_of m); reflexivity.
Qed.

(** ** Number of durations *)
Fixpoint sum_kids (f : rn -> nat) (l : list rn) : nat := match l with [] => 0 | c :: r => f c + sum_kids f r end.
Lemma hears_length l : Forall (fun n => forall before before', length (hear before n) = length (hear before' n)) l -> forall before before', length (hears before l) = length (hears before' l).
Proof. induction l as [|c r IH]; intros F before before'; [reflexivity|]. cbn [hears_g]. rewrite !app_length, (Forall_inv F before before'). f_equal. apply IH. apply (Forall_inv_tail F). Qed.
Lemma hear_length n : forall before before', length (hear before n) = length (hear before' n).
Proof.
  induction n as [k b d kids IH] using rn_ind2. intros before before'. rewrite !hear_eq. destruct (event_class k); [reflexivity|]. destruct k; try apply hears_length; try exact IH. cbn [length]. f_equal. apply hears_length. exact IH.
Qed.
Scheme same_document_i := Induction for same_document Sort Prop with same_documents_i := Induction for same_documents Sort Prop.
Lemma durations_length t m : same_document t m -> forall before, length (hear before t) = length (durations_of m).
Proof.
  intros H. induction H as [rk b durs rkids k tr v kids E1 E2|b durs rkids d s tr v kids E _ IH|rk b durs rkids k tr v kids E1 E2 E3 _ IH| |tr v rkids kids _ IH|r m rkids kids _ IH1 _ IH2]
    using same_document_i with (P0 := fun l l' _ => forall before, length (hears before l) = length (flat_map durations_of l')); intros before; try rewrite hear_eq; cbn [durations_of].
  - rewrite E1, E2. destruct k; try discriminate; reflexivity.
  - cbn. rewrite IH. reflexivity.
  - rewrite E1, E3. assert (Time_Model.kind_of (Time_Model.MN k tr v kids) = k) by reflexivity. assert (is_event k = false) as -> by (destruct k; try discriminate; reflexivity). cbn [app]. destruct rk; try contradiction; try discriminate; apply IH.
  - reflexivity.
  - apply IH.
  - cbn [hears_g flat_map]. rewrite !app_length, IH1, IH2. reflexivity.
Qed.

(** ** Items and nodes *)
Lemma item_node inr n : forall path right x, In x (durables inr path right n) -> exists q c, node_at n q = Some c /\ durs_of c = i_durs x.
Proof.
  induction n as [k b d kids IH] using rn_ind2. intros path right x. rewrite durables_eq. intros I. apply in_app_or in I. destruct I as [I|I].
  - exists [], (RN k b d kids). split; [reflexivity|]. destruct (is_durable k); [|contradiction]. destruct I as [<-|[]]. reflexivity.
  - assert (G : forall done l i, kids = done ++ l -> In x (flats inr path i l) -> exists j q c, node_at (RN k b d kids) (j :: q) = Some c /\ durs_of c = i_durs x).
    { clear I. intros done l. revert done. induction l as [|c r IHr]; intros done i E I; [contradiction|]. cbn [flats] in I. apply in_app_or in I. destruct I as [I|I].
      - assert (NC : nth_error kids (length done) = Some c) by (rewrite E, nth_error_app2, Nat.sub_diag by lia; reflexivity). rewrite Forall_forall in IH.
        destruct (IH c (nth_error_In _ _ NC) _ _ _ I) as (q & m & NM & DM). exists (length done), q, m. split; [|exact DM]. cbn [node_at kids_of]. rewrite NC. exact NM.
      - apply (IHr (done ++ [c]) (S i)); [rewrite <- app_assoc; exact E|exact I]. }
    destruct (G [] kids 0 eq_refl I) as (j & q & c & NC & DC). exists (j :: q), c. auto.
Qed.
Lemma bwd_node n : forall c, In c (bwd n) -> exists q, node_at n q = Some c.
Proof.
  induction n as [k b d kids IH] using rn_ind2. intros c. rewrite bwd_eq. intros [<-|I]; [exists []; reflexivity|].
  assert (G : forall done l, kids = done ++ l -> In c (bwds l) -> exists j q, node_at (RN k b d kids) (j :: q) = Some c).
  { clear I. intros done l. revert done. induction l as [|x r IHr]; intros done E I; [contradiction|]. cbn [bwds] in I. apply in_app_or in I. destruct I as [I|I].
    - apply (IHr (done ++ [x])); [rewrite <- app_assoc; exact E|exact I].
    - assert (NC : nth_error kids (length done) = Some x) by (rewrite E, nth_error_app2, Nat.sub_diag by lia; reflexivity). rewrite Forall_forall in IH.
      destruct (IH x (nth_error_In _ _ NC) _ I) as (q & NQ). exists (length done), q. cbn [node_at kids_of]. rewrite NC. exact NQ. }
  destruct (G [] kids eq_refl I) as (j & q & NQ). exists (j :: q). exact NQ.
Qed.
Lemma bwds_node k b d kids c : In c (bwds kids) -> exists j q, node_at (RN k b d kids) (j :: q) = Some c.
Proof.
  intros I. assert (G : forall done l, kids = done ++ l -> In c (bwds l) -> exists j q, node_at (RN k b d kids) (j :: q) = Some c).
  { clear I. intros done l. revert done. induction l as [|x r IHr]; intros done E I; [contradiction|]. cbn [bwds] in I. apply in_app_or in I. destruct I as [I|I].
    - apply (IHr (done ++ [x])); [rewrite <- app_assoc; exact E|exact I].
    - assert (NC : nth_error kids (length done) = Some x) by (rewrite E, nth_error_app2, Nat.sub_diag by lia; reflexivity).
      destruct (bwd_node x _ I) as (q & NQ). exists (length done), q. cbn [node_at kids_of]. rewrite NC. exact NQ. }
  exact (G [] kids eq_refl I).
Qed.
Lemma flats_node inr path kids k b d x : In x (flats inr path 0 kids) -> exists j q c, node_at (RN k b d kids) (j :: q) = Some c /\ durs_of c = i_durs x.
Proof.
  intros I. assert (G : forall done l i, kids = done ++ l -> In x (flats inr path i l) -> exists j q c, node_at (RN k b d kids) (j :: q) = Some c /\ durs_of c = i_durs x).
  { clear I. intros done l. revert done. induction l as [|c r IHr]; intros done i E I; [contradiction|]. cbn [flats] in I. apply in_app_or in I. destruct I as [I|I].
    - assert (NC : nth_error kids (length done) = Some c) by (rewrite E, nth_error_app2, Nat.sub_diag by lia; reflexivity).
      destruct (item_node _ _ _ _ _ I) as (q & m & NM & DM). exists (length done), q, m. split; [|exact DM]. cbn [node_at kids_of]. rewrite NC. exact NM.
    - apply (IHr (done ++ [c]) (S i)); [rewrite <- app_assoc; exact E|exact I]. }
  exact (G [] kids 0 eq_refl I).
Qed.
Lemma bwd_item inr n : forall path right c, In c (bwd n) -> is_durable (kind_of c) = true -> exists x, In x (durables inr path right n) /\ i_durs x = durs_of c.
Proof.
  induction n as [k b d kids IH] using rn_ind2. intros path right c. rewrite bwd_eq, durables_eq. intros [<-|I] D.
  - cbn [kind_of] in D. rewrite D. eexists. split; [left; reflexivity|reflexivity].
  - assert (G : forall i, exists x, In x (flats inr path i kids) /\ i_durs x = durs_of c).
    { revert I IH. induction kids as [|y r IHr]; intros I IH i; [contradiction|]. cbn [bwds flats] in *. apply in_app_or in I. destruct I as [I|I].
      - destruct (IHr I (Forall_inv_tail IH) (S i)) as (x & IX & E). exists x. split; [apply in_or_app; right; exact IX|exact E].
      - destruct (Forall_inv IH (path ++ [i]) (hd_error r) c I D) as (x & IX & E). exists x. split; [apply in_or_app; left; exact IX|exact E]. }
    destruct (G 0) as (x & IX & E). exists x. split; [apply in_or_app; right; exact IX|exact E].
Qed.
Lemma bwds_item inr kids path : forall i c, In c (bwds kids) -> is_durable (kind_of c) = true -> exists x, In x (flats inr path i kids) /\ i_durs x = durs_of c.
Proof.
  induction kids as [|y r IHr]; intros i c I D; [contradiction|]. cbn [bwds flats] in *. apply in_app_or in I. destruct I as [I|I].
  - destruct (IHr (S i) c I D) as (x & IX & E). exists x. split; [apply in_or_app; right; exact IX|exact E].
  - destruct (bwd_item inr y (path ++ [i]) (hd_error r) c I D) as (x & IX & E). exists x. split; [apply in_or_app; left; exact IX|exact E].
Qed.

(** ** Effective durations *)
Definition ends (p : Q * Q) (l : list item) : Q * Q := fold_left next l p.
Lemma effective_two l : forall p r, effective p (l ++ r) = effective p l ++ effective (ends p l) r.
Proof. induction l as [|x l IH]; intros p r; [reflexivity|]. cbn [app effective ends fold_left]. rewrite IH. reflexivity. Qed.
Lemma ends_app p a b : ends p (a ++ b) = ends (ends p a) b. Proof. apply fold_left_app. Qed.
Lemma ends_skip p x l : i_kind x = KSkip -> ends p (x :: l) = ends p l.
Proof. intros E. cbn [ends fold_left]. unfold ends, next at 2. rewrite E. reflexivity. Qed.
Lemma effective_len l : forall p, length (effective p l) = length l.
Proof. induction l as [|x l IH]; intros p; [reflexivity|]. cbn. rewrite IH. reflexivity. Qed.
Lemma still l : Forall (fun x => i_durs x = []) l -> forall p, effective p l = map (fun _ => p) l /\ ends p l = p.
Proof.
  induction 1 as [|x l E _ IH]; intros p; [split; reflexivity|]. assert (W : now p x = p) by (unfold now, written; rewrite E; reflexivity).
  assert (N : next p x = p) by (unfold next; rewrite W; destruct (sets_previous (i_kind x)); reflexivity). destruct (IH p) as (A & B). split; [cbn [effective map]; rewrite W, N, A; reflexivity|].
  unfold ends in *. cbn [fold_left]. rewrite N. exact B.
Qed.
Lemma ends_const d l : forall p, same p d -> Forall (fun v => same v d) (effective p l) -> same (ends p l) d.
Proof.
  induction l as [|x l IH]; intros p P F; [exact P|]. cbn [effective ends fold_left] in *. apply (IH (next p x)); [|apply (Forall_inv_tail F)]. unfold next. destruct (sets_previous (i_kind x)); [apply (Forall_inv F)|exact P].
Qed.
Lemma written_const d l : forall p, Forall (fun v => same v d) (effective p l) -> forall x w, In x l -> written x = Some w -> same w d.
Proof.
  induction l as [|y l IH]; intros p F x w I W; [contradiction|]. cbn [effective] in F. destruct I as [->|I]; [|eapply IH; [apply (Forall_inv_tail F)|exact I|exact W]]. apply Forall_inv in F. unfold now in F. rewrite W in F. exact F.
Qed.
Lemma F2_split {A B} (R : A -> B -> Prop) a b c d : length a = length c -> Forall2 R (a ++ b) (c ++ d) -> Forall2 R a c /\ Forall2 R b d.
Proof.
  revert c. induction a as [|x a IH]; intros [|y c] L F; try discriminate; cbn in *; [split; [constructor|exact F]|]. inversion F; subst. destruct (IH c) as (A1 & A2); [lia|assumption|]. split; [constructor|]; assumption.
Qed.
Lemma quiet_child k b d kids i c : no_durations_in_chords (RN k b d kids) -> nth_error kids i = Some c -> no_durations_in_chords c.
Proof. intros H N p q n e NP E Q NQ. apply (H (i :: p) q n e); [cbn [node_at kids_of]; rewrite N; exact NP|exact E|exact Q|exact NQ]. Qed.
Lemma search_within l d : (forall c, In c l -> sets_previous (kind_of c) = true -> forall w, duration_scaling (durs_of c) = Some w -> same w d) ->
  match search l with Some w => same w d | None => True end.
Proof.
  intros H. induction l as [|c l IH]; [exact Logic.I|]. rewrite search_cons. destruct (sets_previous (kind_of c)) eqn:S1; [|apply IH; intros x I; apply H; right; exact I].
  destruct (duration_scaling (durs_of c)) as [w|] eqn:D; [apply (H c (or_introl eq_refl) S1 w D)|apply IH; intros x I; apply H; right; exact I].
Qed.
Lemma sets_durable k : sets_previous k = true -> is_durable k = true. Proof. unfold sets_previous. intros H. apply andb_prop in H. apply H. Qed.

Definition follows (before : list rn) (p : Q * Q) : Prop := same (previous_duration before) p.
Lemma sound_now before p durs x : follows before p -> i_durs x = durs -> same (sound before durs) (now p x).
Proof. intros F <-. unfold sound, now, written. destruct (duration_scaling (i_durs x)); [apply same_refl|exact F]. Qed.

Lemma hear_same inr n : forall n' path right right' p p' before before', bare n = bare n' -> no_durations_in_chords n -> same p p' -> follows before p -> follows before' p' ->
  Forall2 same (effective p (durables inr path right n)) (effective p' (durables inr path right' n')) ->
  Forall2 same (hear before n) (hear before' n') /\ follows (bwd n ++ before) (ends p (durables inr path right n)) /\ follows (bwd n' ++ before') (ends p' (durables inr path right' n')) /\
  same (ends p (durables inr path right n)) (ends p' (durables inr path right' n')).
Proof.
  induction n as [k b d kids IH] using rn_ind2. intros [k' b' d' kids'] path right right' p p' before before' B NQ PP F F' E.
  cbn [bare] in B. injection B as <- <- BD BK. rewrite !durables_eq in *. rewrite !hear_eq, !bwd_eq.
  assert (KIDS : event_class k = false -> forall q q', same q q' -> follows before q -> follows before' q' -> Forall2 same (effective q (flats inr path 0 kids)) (effective q' (flats inr path 0 kids')) ->
    Forall2 same (hears before kids) (hears before' kids') /\ follows (bwds kids ++ before) (ends q (flats inr path 0 kids)) /\ follows (bwds kids' ++ before') (ends q' (flats inr path 0 kids')) /\
    same (ends q (flats inr path 0 kids)) (ends q' (flats inr path 0 kids'))).
  { intros _. assert (QK : forall c, In c kids -> no_durations_in_chords c). { intros c I. apply In_nth_error in I. destruct I as [i NI]. exact (quiet_child _ _ _ _ _ _ NQ NI). }
    clear - IH QK BK. revert kids' BK before before'. generalize 0. induction kids as [|c r IHr]; intros i [|c' r'] BK before before' q q' QQ F F' E; try discriminate.
    - split; [constructor|split; [exact F|split; [exact F'|exact QQ]]].
    - cbn [map] in BK. injection BK as BC BR. cbn [flats] in E. rewrite !effective_two in E. destruct (F2_split _ _ _ _ _ ltac:(rewrite !effective_len; apply flat_length; exact BC) E) as (E1 & E2).
      destruct (Forall_inv IH c' (path ++ [i]) (hd_error r) (hd_error r') q q' before before' BC (QK c (or_introl eq_refl)) QQ F F' E1) as (H1 & H2 & H3 & H4).
      destruct (IHr (Forall_inv_tail IH) (fun x I => QK x (or_intror I)) (S i) r' BR _ _ _ _ H4 H2 H3 E2) as (G1 & G2 & G3 & G4).
      cbn [hears_g bwds flats]. rewrite !ends_app, <- !app_assoc. split; [apply Forall2_app; assumption|split; [exact G2|split; [exact G3|exact G4]]]. }
  destruct (event_class k) eqn:EV.
  - clear KIDS. pose proof EV as SP. rewrite event_sets in SP. rewrite (sets_durable k SP) in *. cbn [app] in *. set (x := Item _ k _ _ d) in *. set (x' := Item _ k _ _ d') in *.
    cbn [effective] in E. inversion E as [|? ? ? ? E0 ER]; subst. unfold next in ER. replace (i_kind x) with k in ER by reflexivity. replace (i_kind x') with k in ER by reflexivity. rewrite SP in ER.
    assert (ST : Forall (fun y => i_durs y = []) (flats inr path 0 kids)).
    { rewrite Forall_forall. intros y I. destruct (flats_node _ _ _ k b d _ I) as (j & q & c & NC & <-). apply (NQ [] (j :: q) _ c eq_refl); [exact EV|discriminate|exact NC]. }
    destruct (still _ ST (now p x)) as (EF & EN). rewrite EF in ER.
    assert (CO : Forall (fun v => same v (now p' x')) (effective (now p' x') (flats inr path 0 kids'))).
    { clear - ER E0. revert ER. generalize (effective (now p' x') (flats inr path 0 kids')). generalize (flats inr path 0 kids). intros l l' H. remember (map (fun _ => now p x) l) as m eqn:M. revert l M. induction H as [|a e ma l'' SA _ IHH]; intros l M; [constructor|].
      destruct l as [|y l]; [discriminate|]. cbn in M. injection M as -> M. constructor; [|apply (IHH l M)]. eapply same_trans; [apply same_sym; exact SA|exact E0]. }
    assert (SN : same (sound before d) (now p x)) by (apply sound_now; [exact F|reflexivity]). assert (SN' : same (sound before' d') (now p' x')) by (apply sound_now; [exact F'|reflexivity]).
    assert (NX : ends p (x :: flats inr path 0 kids) = now p x). { cbn [ends fold_left]. unfold next at 2. replace (i_kind x) with k by reflexivity. rewrite SP. exact EN. }
    assert (NX' : ends p' (x' :: flats inr path 0 kids') = ends (now p' x') (flats inr path 0 kids')). { cbn [ends fold_left]. unfold next at 2. replace (i_kind x') with k by reflexivity. rewrite SP. reflexivity. }
    pose proof (ends_const _ _ _ (same_refl _) CO) as EC. rewrite NX, NX'.
    split; [constructor; [eapply same_trans; [exact SN|eapply same_trans; [exact E0|apply same_sym; exact SN']]|constructor]|]. split; [|split; [|eapply same_trans; [exact E0|apply same_sym; exact EC]]].
    + unfold follows, previous_duration. cbn [app]. rewrite search_cons. cbn [kind_of durs_of]. rewrite SP. unfold now, written. replace (i_durs x) with d by reflexivity. destruct (duration_scaling d) as [w|] eqn:W; [apply same_refl|].
      rewrite search_app. assert (search (bwds kids) = None) as ->; [|exact F]. assert (G : forall l, (forall c, In c l -> durs_of c = []) -> search l = None).
      { clear. induction l as [|c l IH]; intros H; [reflexivity|]. rewrite search_cons, (H c (or_introl eq_refl)). cbn [duration_scaling]. destruct (sets_previous (kind_of c)); apply IH; intros y I; apply H; right; exact I. }
      apply G. intros c I. destruct (bwds_node k b d kids c I) as (j & q & NC). apply (NQ [] (j :: q) _ c eq_refl); [exact EV|discriminate|exact NC].
    + eapply same_trans; [|apply same_sym; exact EC]. unfold follows, previous_duration. cbn [app]. rewrite search_cons. cbn [kind_of durs_of]. rewrite SP.
      destruct (duration_scaling d') as [w|] eqn:W.
      * unfold now, written. replace (i_durs x') with d' by reflexivity. rewrite W. apply same_refl.
      * rewrite search_app. assert (SW : match search (bwds kids') with Some w => same w (now p' x') | None => True end).
        { apply search_within. intros c I SC w DW. destruct (bwds_item inr kids' path 0 c I (sets_durable _ SC)) as (y & IY & EY). apply (written_const _ _ _ CO y w IY). unfold written. rewrite EY. exact DW. }
        destruct (search (bwds kids')) as [w|]; [exact SW|]. unfold now, written. replace (i_durs x') with d' by reflexivity. rewrite W. exact F'.
  - pose proof EV as SP. rewrite event_sets in SP. specialize (KIDS eq_refl).
    assert (HD : forall bf kk dd, follows (RN k b dd kk :: bf) = follows bf). { intros bf kk dd. unfold follows, previous_duration. rewrite search_cons. cbn [kind_of]. rewrite SP. reflexivity. }
    destruct (is_durable k) eqn:DU.
    + assert (k = KSkip) as -> by (destruct k; try discriminate; reflexivity). cbn [app] in *. cbn [effective] in E. inversion E as [|? ? ? ? E0 ER]; subst. unfold next in ER. cbn [i_kind sets_previous is_durable is_skip andb negb] in ER.
      destruct (KIDS p p' PP F F' ER) as (G1 & G2 & G3 & G4). rewrite !ends_skip by reflexivity. cbn [app]. rewrite !HD.
      split; [|split; [exact G2|split; [exact G3|exact G4]]]. constructor; [|exact G1]. eapply same_trans; [|eapply same_trans; [exact E0|]]; [apply sound_now; [exact F|reflexivity]|apply same_sym; apply sound_now; [exact F'|reflexivity]].
    + cbn [app] in *. destruct (KIDS p p' PP F F' E) as (G1 & G2 & G3 & G4). rewrite !HD. split; [|split; [exact G2|split; [exact G3|exact G4]]]. destruct k; try discriminate; exact G1.
Qed.
Lemma heard_same inr t t' : bare t = bare t' -> no_durations_in_chords t -> Forall2 same (effective quarter (document inr t)) (effective quarter (document inr t')) -> Forall2 same (heard t) (heard t').
Proof.
  intros B NQ E. rewrite !heard_eq. eapply hear_same; [exact B|exact NQ|apply same_refl|apply same_refl|apply same_refl|exact E].
Qed.

(** ** The same document after an edit *)
Definition skip_kept (x y : item) : Prop := i_kind x = KSkip -> (i_durs x <> [] <-> i_durs y <> []).
Lemma same_document_kept inr t m : same_document t m -> forall t' path right right', bare t = bare t' -> Forall2 skip_kept (durables inr path right t) (durables inr path right' t') -> same_document t' m.
Proof.
  intros H. induction H as [rk b durs rkids k tr v kids E1 E2|b durs rkids d s tr v kids E _ IH|rk b durs rkids k tr v kids E1 E2 E3 _ IH| |tr v rkids kids _ IH|r m rkids kids _ IH1 _ IH2]
    using same_document_i with (P0 := fun l l' _ => forall r' path i, map bare l = map bare r' -> Forall2 skip_kept (flats inr path i l) (flats inr path i r') -> same_documents r' l').
  - intros [k' b' durs' kids'] path right right' B _. cbn [bare] in B. injection B as <- _ _ _. constructor; assumption.
  - intros [k' b' durs' kids'] path right right' B F. cbn [bare] in B. injection B as <- _ _ BK. rewrite !durables_eq in F. cbn [is_durable app] in F. inversion F as [|? ? ? ? F0 FR]; subst. constructor; [|apply (IH _ path 0 BK FR)].
    specialize (F0 eq_refl). cbn [i_durs] in F0. rewrite <- F0. exact E.
  - intros [k' b' durs' kids'] path right right' B F. cbn [bare] in B. injection B as <- _ _ BK. rewrite !durables_eq in F.
    assert (ND : is_durable rk = false) by (destruct rk; try discriminate; try contradiction; reflexivity). rewrite ND in F. constructor; [exact E1|exact E2|exact E3|]. apply (IH _ path 0 BK F).
  - intros [|] path i B F; [constructor|discriminate].
  - intros r' path i B F. constructor. apply (IH _ path i B F).
  - intros [|r' rr] path i B F; [discriminate|]. cbn [map] in B. injection B as B1 B2. cbn [flats] in F. apply F2_split in F; [|apply flat_length; exact B1]. destruct F as (F1 & F2). constructor; [apply (IH1 _ _ _ _ B1 F1)|apply (IH2 _ path (S i) B2 F2)].
Qed.

(** ** Scaled *)
Definition soundo (before : list rn) (durs : list dnode) : option (Q * Q) := match duration_scaling durs with Some d => Some d | None => search before end.
Definition scaled_by (f : Q) (a b : Q * Q) : Prop := (fst b == fst a /\ snd b == f * snd a)%Q.
Definition scaledo (f : Q) (a b : option (Q * Q)) : Prop := match a, b with Some x, Some y => scaled_by f x y | None, None => True | _, _ => False end.
Lemma hear_odef n : forall before, hear before n = map odef (hear_g soundo before n).
Proof.
  assert (S1 : forall before d, sound before d = odef (soundo before d)). { intros before d. unfold sound, soundo, previous_duration. destruct (duration_scaling d); [reflexivity|]. destruct (search before); reflexivity. }
  induction n as [k b d kids IH] using rn_ind2. intros before. rewrite !hear_eq. assert (KIDS : forall bf, hears bf kids = map odef (hears_g soundo bf kids)).
  { clear - IH. induction kids as [|c r IHr]; intros bf; [reflexivity|]. cbn [hears_g]. rewrite map_app, (Forall_inv IH), IHr by apply (Forall_inv_tail IH). reflexivity. }
  destruct (event_class k); [cbn; rewrite S1; reflexivity|]. destruct k; try apply KIDS. cbn [map]. rewrite S1, KIDS. reflexivity.
Qed.
Lemma soundo_scaled f before before' d d' : scaledo f (duration_scaling d) (duration_scaling d') -> scaledo f (search before) (search before') -> scaledo f (soundo before d) (soundo before' d').
Proof. unfold soundo. destruct (duration_scaling d), (duration_scaling d'); cbn; auto; contradiction. Qed.
Section Scaled.
Variables (f : Q) (tr : Q * Q -> res (Q * Q)) (inr : list nat -> bool).
Hypothesis by_f : forall d s, exists d' s', tr (d, s) = Ok (d', s') /\ scaled_by f (d, s) (d', s').
Hypothesis everything : forall p, p <> [] -> inr p = true.
Lemma durs_scaled path k b d d' kids kids' : transformed tr inr path (RN k b d kids) (RN k b d' kids') -> path <> [] -> is_durable k = true -> scaledo f (duration_scaling d) (duration_scaling d').
Proof.
  intros T P D. inversion T as [p0 k0 b0 d0 d0' ks ks' H L K]; subst. rewrite (everything path P) in H. unfold handles in H. rewrite D in H. cbn [orb andb] in H.
  destruct (duration_scaling d) as [[x y]|]; [|subst d'; exact Logic.I]. destruct H as (x' & y' & e & TR & -> & SE & _). destruct (by_f x y) as (x2 & y2 & TR2 & SB). rewrite TR in TR2. injection TR2 as <- <-.
  assert (same e (x', y')) as (A & B) by (destruct k; try discriminate; exact SE). destruct SB as (C & G). cbn [fst snd] in *. split; [rewrite A, C; reflexivity|rewrite B, G; reflexivity].
Qed.
Lemma scaled_node n : forall n' path before before', transformed tr inr path n n' -> path <> [] -> scaledo f (search before) (search before') ->
  Forall2 (scaledo f) (hear_g soundo before n) (hear_g soundo before' n') /\ scaledo f (search (bwd n ++ before)) (search (bwd n' ++ before')).
Proof.
  induction n as [k b d kids IH] using rn_ind2. intros n' path before before' T P S1. pose proof T as T0. inversion T as [p0 k0 b0 d0 d' ks kids' H L K]; subst. rewrite !hear_eq, !bwd_eq.
  assert (KIDS : forall before before', scaledo f (search before) (search before') ->
    Forall2 (scaledo f) (hears_g soundo before kids) (hears_g soundo before' kids') /\ scaledo f (search (bwds kids ++ before)) (search (bwds kids' ++ before'))).
  { assert (KK : forall i c c', nth_error kids i = Some c -> nth_error kids' i = Some c' -> exists q, q <> [] /\ transformed tr inr q c c').
    { intros i c c' A B. exists (path ++ [i]). split; [destruct path; discriminate|apply (K i); assumption]. }
    clear - IH KK L. revert kids' KK L. induction kids as [|c r IHr]; intros [|c' r'] KK L before before' S; try discriminate; [split; [constructor|exact S]|].
    destruct (KK 0 c c' eq_refl eq_refl) as (q & Q1 & TC). destruct (Forall_inv IH c' q before before' TC Q1 S) as (A & B).
    destruct (IHr (Forall_inv_tail IH) r' (fun i x y N N' => KK (Datatypes.S i) x y N N') ltac:(cbn in L; lia) _ _ B) as (A2 & B2).
    cbn [hears_g bwds]. rewrite <- !app_assoc. split; [apply Forall2_app; assumption|exact B2]. }
  destruct (KIDS before before' S1) as (KA & KB). split.
  - destruct (event_class k) eqn:EV.
    + constructor; [|constructor]. apply soundo_scaled; [|exact S1]. rewrite event_sets in EV. exact (durs_scaled _ _ _ _ _ _ _ T0 P (sets_durable _ EV)).
    + destruct k; try exact KA. constructor; [|exact KA]. apply soundo_scaled; [|exact S1]. exact (durs_scaled _ _ _ _ _ _ _ T0 P eq_refl).
  - cbn [app]. rewrite !search_cons. cbn [kind_of durs_of]. destruct (sets_previous k) eqn:SP; [|exact KB]. pose proof (durs_scaled _ _ _ _ _ _ _ T0 P (sets_durable _ SP)) as DS.
    destruct (duration_scaling d), (duration_scaling d'); cbn in DS; try contradiction; [exact DS|exact KB].
Qed.
Lemma scaled_root t t' : is_durable (kind_of t) = false -> transformed tr inr [] t t' -> Forall2 (scaledo f) (hear_g soundo [] t) (hear_g soundo [] t').
Proof.
  intros D T. inversion T as [p0 k b d d' kids kids' H L K]; subst. cbn [kind_of] in D. rewrite !hear_eq. assert (EV : event_class k = false) by (destruct k; try discriminate; reflexivity). rewrite EV.
  assert (KIDS : forall i before before', (forall j c c', nth_error kids j = Some c -> nth_error kids' j = Some c' -> transformed tr inr [i + j] c c') -> scaledo f (search before) (search before') -> Forall2 (scaledo f) (hears_g soundo before kids) (hears_g soundo before' kids')).
  { clear K T H. revert kids' L. induction kids as [|c r IHr]; intros [|c' r'] L i before before' K S; try discriminate; [constructor|].
    destruct (scaled_node c c' [i + 0] before before' (K 0 c c' eq_refl eq_refl) ltac:(discriminate) S) as (A & B). cbn [hears_g]. apply Forall2_app; [exact A|].
    apply (IHr r' ltac:(cbn in L; lia) (Datatypes.S i)); [|exact B]. intros j x y N N'. replace (Datatypes.S i + j) with (i + Datatypes.S j) by lia. apply K; assumption. }
  assert (G : Forall2 (scaledo f) (hears_g soundo [] kids) (hears_g soundo [] kids')) by (apply (KIDS 0); [exact K|exact Logic.I]). destruct k; try discriminate; exact G.
Qed.
End Scaled.
Lemma transformed_skip tr inr t m : same_document t m -> forall t' path, transformed tr inr path t t' -> same_document t' m.
Proof.
  intros H. induction H as [rk b durs rkids k tr0 v kids E1 E2|b durs rkids d s tr0 v kids E _ IH|rk b durs rkids k tr0 v kids E1 E2 E3 _ IH| |tr0 v rkids kids _ IH|r m rkids kids _ IH1 _ IH2]
    using same_document_i with (P0 := fun l l' _ => forall r', length r' = length l -> (forall i c c', nth_error l i = Some c -> nth_error r' i = Some c' -> exists q, transformed tr inr q c c') -> same_documents r' l').
  - intros t' path T. inversion T; subst. constructor; assumption.
  - intros t' path T. inversion T as [p0 k0 b0 d0 d' ks kids' H L K]; subst. constructor; [|apply IH; [exact L|intros i c c' A B; eexists; apply (K i); assumption]]. rewrite <- E. clear - H.
    destruct (inr path && handles KSkip); [|subst; reflexivity]. destruct durs as [|x r]; cbn [duration_scaling] in H; [subst; reflexivity|]. destruct (dur_value x) as [a b]. destruct H as (? & ? & ? & _ & H & _ & L). destruct d'; [discriminate|]. split; intros _; discriminate.
  - intros t' path T. inversion T as [p0 k0 b0 d0 d' ks kids' H L K]; subst. constructor; [exact E1|exact E2|exact E3|]. apply IH; [exact L|intros i c c' A B; eexists; apply (K i); assumption].
  - intros [|] L _; [constructor|discriminate].
  - intros r' L K. constructor. apply IH; assumption.
  - intros [|r' rr] L K; [discriminate|]. constructor; [destruct (K 0 _ _ eq_refl eq_refl) as (q & T); apply (IH1 _ q T)|apply IH2; [cbn in L; lia|intros i c c' A B; apply (K (S i) c c' A B)]].
Qed.
