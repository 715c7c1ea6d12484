From Coq Require Import List Arith Bool Lia.
From Verif Require Import Base Build_Model Build_Spec Build_Proofs Signature_Model Signature_Spec.
Import ListNotations.

Lemma class_of_number : forall c, class_of (number c) = Some c.
Proof. destruct c; reflexivity. Qed.
Lemma number_inj : forall c d, number c = number d -> c = d.
Proof. intros c d E. pose proof (class_of_number c) as H. rewrite E, class_of_number in H. congruence. Qed.
Lemma in_all : forall c, In c all_classes.
Proof. intros c. eapply nth_error_In. apply class_of_number. Qed.
Lemma ignored_comment : forall c, lily_ignored (number c) = comment c.
Proof. intros c. unfold lily_ignored. rewrite class_of_number. destruct c; reflexivity. Qed.
Lemma signatures_number : forall c, lily_signatures (number c) = match class_signatures c with Some l => Some (map (map test) l) | None => None end.
Proof. intros c. unfold lily_signatures. rewrite class_of_number. reflexivity. Qed.
Lemma test_number : forall t c, test t (number c) = isinstance t c.
Proof. intros t c. unfold test. rewrite class_of_number. reflexivity. Qed.

Fixpoint all2 {A B} (f : A -> B -> bool) (a : list A) (b : list B) : bool :=
  match a, b with [], [] => true | x :: a, y :: b => f x y && all2 f a b | _, _ => false end.
(** some kind of the front of the signature has no class of its own *)
Fixpoint clash (g s : list (list cls)) : bool :=
  match g, s with k :: g, t :: s => negb (existsb (isinstance t) k) || clash g s | _, _ => false end.

Definition fit_check (c : cls) : bool :=
  forallb (fun g => match g, class_signatures c with
    | [], _ => true
    | _, None => false
    | _, Some ss => existsb (fun s => all2 (fun k t => forallb (isinstance t) k) g s) ss
    end) (takes c).
Definition end_check (c : cls) : bool :=
  match class_signatures c with
  | None => true
  | Some ss =>
      forallb (fun g =>
        (nonempty ss || forallb (fun x => negb (comment x) || goes_on c (map (fun _ => KNote) g) x) all_classes) &&
        forallb (fun s => (length s <=? length g) || clash g s ||
          forallb (fun x => negb (comment x || isinstance (nth (length g) s []) x) || goes_on c (map (fun _ => KNote) g) x) all_classes) ss) (takes c)
  end.
Definition none_check (c : cls) : bool :=
  match takes c, class_signatures c with [[]], Some _ => Nat.eqb (number c) (number KMusicFunction) | _, _ => true end.
Definition sense_check (c : cls) : bool := match class_signatures c with Some ss => forallb nonempty ss | None => true end.

Lemma checks : forallb (fun c => fit_check c && end_check c && none_check c && sense_check c) all_classes = true.
Proof. vm_compute. reflexivity. Qed.
Lemma check_of : forall c, fit_check c = true /\ end_check c = true /\ none_check c = true /\ sense_check c = true.
Proof.
  intros c. pose proof (proj1 (forallb_forall _ _) checks c (in_all c)) as H. cbn beta in H. rewrite !andb_true_iff in H. tauto.
Qed.

Lemma lily_sensible : sensible lily_signatures.
Proof.
  intros y ss E s I. unfold lily_signatures in E. destruct (class_of y) as [c|]; [|discriminate].
  destruct (check_of c) as (_ & _ & _ & H). unfold sense_check in H. destruct (class_signatures c) as [l|]; [|discriminate]. injection E as <-.
  apply in_map_iff in I. destruct I as (s0 & <- & I). apply (proj1 (forallb_forall _ _) H) in I. destruct s0; [discriminate|discriminate].
Qed.

Lemma goes_on_length : forall c a b x, length a = length b -> goes_on c a x = goes_on c b x.
Proof. intros c a b x E. unfold goes_on. rewrite E. reflexivity. Qed.

Lemma classes_fun : forall l cs, argument_classes l cs -> forall cs', argument_classes l cs' -> cs = cs'.
Proof.
  induction 1 as [|d l cs c I C A IH|d l cs c I C A IH]; intros cs' A'; inversion A' as [|d0 l0 cs0 c0 I0 C0 A0|d0 l0 cs0 c0 I0 C0 A0]; subst; auto;
    unfold is_class in *; assert (c = c0) by (apply number_inj; congruence); subst; try congruence. f_equal. auto.
Qed.
Lemma classes_args : forall l cs, argument_classes l cs -> arguments lily_ignored (map tree_of l) = map number cs.
Proof.
  induction 1 as [|d l cs c I C A IH|d l cs c I C A IH]; [reflexivity| |];
    unfold arguments in *; cbn [map filter]; rewrite tree_of_type; unfold is_class in I; rewrite I, ignored_comment, C; cbn [negb map]; [exact IH|rewrite IH; reflexivity].
Qed.

Lemma Forall2_len {A B} (R : A -> B -> Prop) l l' : Forall2 R l l' -> length l = length l'.
Proof. induction 1; cbn; congruence. Qed.
Lemma fits_front : forall a b s, fits (a ++ b) s -> fits a s.
Proof. induction a as [|y a IH]; intros b s F; [constructor|]. cbn [app] in F. inversion F; subst. constructor; [assumption|eauto]. Qed.
Lemma fits_all2 : forall cs g, Forall2 (fun c k => In c k) cs g -> forall s, all2 (fun k t => forallb (isinstance t) k) g s = true ->
  fits (map number cs) (map test s) /\ length s = length g.
Proof.
  induction 1 as [|c k cs g I F IH]; intros s A; destruct s as [|t s]; try discriminate; [split; [constructor|reflexivity]|].
  cbn [all2] in A. apply andb_true_iff in A. destruct A as [A1 A2]. destruct (IH s A2) as [F1 F2]. split; [|cbn; congruence].
  cbn [map]. constructor; [|exact F1]. rewrite test_number. exact (proj1 (forallb_forall _ _) A1 _ I).
Qed.
Lemma fits_clash : forall cs g, Forall2 (fun c k => In c k) cs g -> forall ys s, fits (map number cs ++ ys) (map test s) -> clash g s = false.
Proof.
  induction 1 as [|c k cs g I F IH]; intros ys s A; [reflexivity|]. destruct s as [|t s]; [reflexivity|]. cbn [map app] in A. inversion A; subst.
  cbn [clash]. apply orb_false_iff. split; [|eapply IH; eauto]. apply negb_false_iff, existsb_exists. exists c. split; [exact I|]. rewrite <- test_number. assumption.
Qed.
Lemma fits_next : forall a y s, fits (a ++ [y]) (map test s) -> test (nth (length a) s []) y = true.
Proof.
  induction a as [|x a IH]; intros y s F; destruct s as [|t s]; cbn [map app] in F; inversion F; subst; [assumption|]. cbn [length nth]. apply IH. assumption.
Qed.

(** The stream node of a complete command with arguments has no children. *)
Lemma complete_inv : forall t added, complete (D t added) -> exists c cs g,
  is_class (b_ty t) c /\ argument_classes added cs /\ last_not_comment added /\ In g (takes c) /\ Forall2 (fun c k => In c k) cs g /\
  (b_kids t = [] \/ added = [] /\ class_signatures c = None) /\ separate added /\ Forall complete added.
Proof.
  intros t added H. inversion H as [? ? c cs g I A L T F K S C]; subst. exists c, cs, g. repeat split; auto.
  destruct K as [K|[K N]]; [left; exact K|right]. rewrite K in T. destruct T as [<-|[]]. inversion F; subst. split.
  - destruct added as [|d l]; [reflexivity|exfalso]. destruct (exists_last (l := d :: l) ltac:(discriminate)) as (p & d' & E). rewrite E in *.
    assert (Q : forall l cs, argument_classes l cs -> cs = [] -> forall p d, l = p ++ [d] -> exists c, is_class (b_ty (d_node d)) c /\ comment c = true).
    { clear. induction 1 as [|d l cs c I C A IH|d l cs c I C A IH]; intros Z p x E; [destruct p; discriminate| |discriminate].
      destruct p as [|y p]; injection E; intros; subst; [eauto|]. eapply IH; eauto. }
    destruct (Q _ _ A eq_refl p d' eq_refl) as (c' & Ic & Cc). rewrite (L p d' c' eq_refl Ic) in Cc. discriminate.
  - destruct (check_of c) as (_ & _ & H0 & _). unfold none_check in H0. rewrite K in H0. destruct (class_signatures c); [|reflexivity].
    apply Nat.eqb_eq, number_inj in H0. contradiction.
Qed.

Notation acc := (accepts lily_signatures lily_ignored).
Notation rej := (rejects lily_signatures lily_ignored).
Notation val := (valid lily_signatures lily_ignored).

Lemma complete_rejects : forall d, complete d -> forall next x, ends_before d next -> is_class (b_ty x) next -> rej d x.
Proof.
  induction d as [t added IH] using dt_ind2. intros C next x E X. apply complete_inv in C. destruct C as (c & cs & g & I & A & L & T & F & K & S & CC).
  inversion E as [? ? c' cs' ? I' A' G R]; subst. assert (c' = c) by (apply number_inj; unfold is_class in *; congruence). subst c'.
  assert (cs' = cs) by (eapply classes_fun; eauto). subst cs'. unfold is_class in *.
  apply rejects_eq. split.
  - intros (ss & H1 & H2). cbn [tree_of b_ty b_kids] in H1, H2. rewrite I, signatures_number in H1.
    destruct (check_of c) as (_ & EC & _ & _). unfold end_check in EC.
    destruct (class_signatures c) as [l|] eqn:Sc; [|discriminate]. injection H1 as <-.
    destruct K as [K|[_ K]]; [|discriminate]. rewrite K in H2. cbn [app] in H2. rewrite (classes_args _ _ A), X, ignored_comment in H2.
    assert (LG : length cs = length g) by (eapply Forall2_len; eauto).
    pose proof (proj1 (forallb_forall _ _) EC g T) as EG. cbn beta in EG. apply andb_true_iff in EG. destruct EG as [EG1 EG2].
    assert (GL : goes_on c (map (fun _ => KNote) g) next = false) by (rewrite <- G; apply goes_on_length; rewrite map_length; auto).
    destruct H2 as [(H2 & H3 & H4)|(s & H2 & H3 & H4)].
    + destruct l as [|s0 l]; [|discriminate]. cbn [nonempty orb] in EG1. pose proof (proj1 (forallb_forall _ _) EG1 next (in_all next)) as Q. cbn beta in Q.
      rewrite H4, GL in Q. discriminate.
    + apply in_map_iff in H2. destruct H2 as (s0 & <- & H2). pose proof (proj1 (forallb_forall _ _) EG2 s0 H2) as Q. cbn beta in Q.
      rewrite !map_length in H3. rewrite (fits_clash _ _ F _ _ H4) in Q.
      replace (length s0 <=? length g) with false in Q by (symmetry; apply Nat.leb_gt; lia). cbn [orb] in Q.
      pose proof (proj1 (forallb_forall _ _) Q next (in_all next)) as Q1. cbn beta in Q1. rewrite GL, orb_false_r in Q1. apply negb_true_iff, orb_false_iff in Q1.
      destruct Q1 as [Q1 Q2]. rewrite Q1 in H4. apply fits_next in H4. rewrite map_length, LG, test_number in H4. congruence.
  - clear - IH CC R X. induction IH as [|d l Pd Fl IHl]; [exact Logic.I|]. cbn [last_rejects]. destruct l as [|d2 l].
    + eapply Pd; eauto; [exact (Forall_inv CC)|]. apply (R []). reflexivity.
    + apply IHl; [exact (Forall_inv_tail CC)|]. intros p d' E'. apply (R (d :: p)). rewrite E'. reflexivity.
Qed.

Lemma separate_greedy : forall l, Forall complete l -> separate l -> greedy lily_signatures lily_ignored l.
Proof.
  intros l C S. induction S as [|d|d d' l next I E S IH]; [exact Logic.I|split; exact Logic.I|]. split; [|apply IH; exact (Forall_inv_tail C)].
  eapply complete_rejects; [exact (Forall_inv C)|exact E|]. unfold is_class. rewrite tree_of_type. exact I.
Qed.

Lemma complete_valid : forall d, complete d -> val d.
Proof.
  induction d as [t added IH] using dt_ind2. intros C. apply complete_inv in C. destruct C as (c & cs & g & I & A & L & T & F & K & S & CC).
  apply valid_eq. split; [|split; [apply separate_greedy; assumption|]].
  2: { clear - IH CC. induction IH as [|d l Pd Fl IHl]; [exact Logic.I|]. split; [apply Pd; exact (Forall_inv CC)|apply IHl; exact (Forall_inv_tail CC)]. }
  intros a x b E. unfold is_class in *.
  destruct K as [K|[K _]]; [|subst added; destruct a; discriminate].
  unfold accepts. cbn [b_ty b_kids]. rewrite I, signatures_number, K. cbn [app].
  pose proof (classes_args _ _ A) as AA. rewrite E, args_app in AA.
  assert (NE : arguments lily_ignored (x :: b) <> []).
  { destruct (exists_last (l := added)) as (p & d & El); [intros ->; destruct a; discriminate|].
    destruct (exists_last (l := x :: b) ltac:(discriminate)) as (b' & z & Eb). rewrite Eb in *.
    rewrite El, map_app, app_assoc in E. cbn [map] in E. apply app_inj_tail in E. destruct E as [_ <-].
    assert (Q : forall l cs, argument_classes l cs -> forall p d, l = p ++ [d] -> exists c, is_class (b_ty (d_node d)) c).
    { clear. induction 1 as [|d l cs c I C A IH|d l cs c I C A IH]; intros p x E; [destruct p; discriminate| |];
        (destruct p as [|y p]; injection E; intros; subst; [eauto|]; eapply IH; eauto). }
    destruct (Q _ _ A p d El) as (cd & Id). pose proof (L p d cd El Id) as Cd. unfold is_class in Id.
    rewrite args_app, args_one, tree_of_type, Id, ignored_comment, Cd. intros Z. apply app_eq_nil in Z. destruct Z; discriminate. }
  destruct (check_of c) as (FC & _ & _ & _). unfold fit_check in FC. pose proof (proj1 (forallb_forall _ _) FC g T) as Q. cbn beta in Q.
  assert (LG : length cs = length g) by (eapply Forall2_len; eauto).
  destruct g as [|k g].
  { destruct cs; [|discriminate]. apply app_eq_nil in AA. destruct AA; contradiction. }
  destruct (class_signatures c) as [l|]; [|discriminate]. apply existsb_exists in Q. destruct Q as (s & Is & As).
  destruct (fits_all2 _ _ F s As) as [Fs Ls].
  exists (map (map test) l). split; [reflexivity|]. right. exists (map test s). split; [apply in_map; exact Is|].
  rewrite <- AA in Fs. split.
  - rewrite map_length, Ls, <- LG, <- (map_length number), <- AA, app_length. destruct (arguments lily_ignored (x :: b)); [contradiction|cbn; lia].
  - destruct (lily_ignored (b_ty x)) eqn:G.
    + rewrite app_nil_r. eapply fits_front. exact Fs.
    + change (x :: b) with ([x] ++ b) in Fs. rewrite args_app, args_one, G, app_assoc in Fs. eapply fits_front. exact Fs.
Qed.

Theorem lily_build : forall ds, Forall complete ds -> separate ds -> build_lily (flat_map nodes_of ds) = Ok (map tree_of ds).
Proof.
  intros ds C S. apply plain_complete; [exact lily_sensible| |apply separate_greedy; assumption].
  eapply Forall_impl; [|exact C]. exact complete_valid.
Qed.

(** * Deciding completeness *)
Lemma class_of_is : forall y c, class_of y = Some c -> is_class y c.
Proof.
  intros y c E. unfold class_of in E. assert (M : map number all_classes = seq 0 (length all_classes)) by (vm_compute; reflexivity).
  assert (L : y < length all_classes) by (apply nth_error_Some; congruence).
  apply (map_nth_error number) in E. rewrite M in E. apply (nth_error_nth _ _ 0) in E. rewrite seq_nth in E by exact L. exact E.
Qed.
Fixpoint classesb (l : list dt) : option (list cls) :=
  match l with
  | [] => Some []
  | d :: r => match class_of (b_ty (d_node d)), classesb r with Some c, Some cs => Some (if comment c then cs else c :: cs) | _, _ => None end
  end.
Lemma classesb_ok : forall l cs, classesb l = Some cs -> argument_classes l cs.
Proof.
  induction l as [|d l IH]; intros cs E; cbn [classesb] in E; [injection E as <-; constructor|].
  destruct (class_of (b_ty (d_node d))) as [c|] eqn:C; [|discriminate]. destruct (classesb l) as [cs0|]; [|discriminate]. injection E as <-.
  apply class_of_is in C. destruct (comment c) eqn:K; [eapply a_comment|eapply an_argument]; eauto.
Qed.
Fixpoint endsb (d : dt) (next : cls) : bool :=
  match d with
  | D t added =>
      match class_of (b_ty t), classesb added with
      | Some c, Some cs => negb (goes_on c cs next) &&
          (fix lst l := match l with [] => true | d' :: r => match r with [] => endsb d' next | _ => lst r end end) added
      | _, _ => false
      end
  end.
Lemma endsb_ok : forall d next, endsb d next = true -> ends_before d next.
Proof.
  induction d as [t l IH] using dt_ind2. intros next E. cbn [endsb] in E.
  destruct (class_of (b_ty t)) as [c|] eqn:C; [|discriminate]. destruct (classesb l) as [cs|] eqn:CS; [|discriminate].
  apply andb_true_iff in E. destruct E as [E1 E2]. apply negb_true_iff in E1.
  eapply ends; [apply class_of_is; exact C|apply classesb_ok; exact CS|exact E1|]. clear - IH E2.
  induction IH as [|d r Pd F IHr]; intros p x E; [destruct p; discriminate|]. destruct r as [|d2 r].
  - destruct p as [|y p]; [|destruct p; discriminate]. injection E as <-. auto.
  - destruct p as [|y p]; [discriminate|]. injection E as <- E. apply (IHr E2 p x E).
Qed.
Fixpoint separateb (l : list dt) : bool :=
  match l with
  | [] => true
  | d :: r => match r with [] => true | d' :: _ => match class_of (b_ty (d_node d')) with Some c => endsb d c | None => false end end && separateb r
  end.
Lemma separateb_ok : forall l, separateb l = true -> separate l.
Proof.
  induction l as [|d l IH]; intros E; [constructor|]. cbn [separateb] in E. apply andb_true_iff in E. destruct E as [E1 E2]. destruct l as [|d' l]; [constructor|].
  destruct (class_of (b_ty (d_node d'))) as [c|] eqn:C; [|discriminate]. eapply separate_cons; [apply class_of_is; exact C|apply endsb_ok; exact E1|auto].
Qed.
Definition lastb (l : list dt) : bool := match rev l with [] => true | d :: _ => match class_of (b_ty (d_node d)) with Some c => negb (comment c) | None => false end end.
Lemma lastb_ok : forall l, lastb l = true -> last_not_comment l.
Proof.
  intros l E p d c El I. subst l. unfold lastb in E. rewrite rev_app_distr in E. cbn [rev app] in E. rewrite I, class_of_number in E. apply negb_true_iff. exact E.
Qed.
Definition memb (c : cls) (k : list cls) : bool := existsb (fun d => Nat.eqb (number c) (number d)) k.
Fixpoint completeb (d : dt) : bool :=
  match d with
  | D t added =>
      match class_of (b_ty t), classesb added with
      | Some c, Some cs => lastb added && existsb (fun g => all2 memb cs g) (takes c) && (match b_kids t with [] => true | _ => false end || (match takes c with [[]] => true | _ => false end && negb (memb c [KMusicFunction]))) && separateb added &&
          (fix all l := match l with [] => true | d' :: r => completeb d' && all r end) added
      | _, _ => false
      end
  end.
Lemma completeb_ok : forall d, completeb d = true -> complete d.
Proof.
  induction d as [t l IH] using dt_ind2. intros E. cbn [completeb] in E.
  destruct (class_of (b_ty t)) as [c|] eqn:C; [|discriminate]. destruct (classesb l) as [cs|] eqn:CS; [|discriminate].
  rewrite !andb_true_iff in E. destruct E as ((((E1 & E2) & E3) & E4) & E5). apply existsb_exists in E2. destruct E2 as (g & T & G).
  eapply (complete_intro _ _ c cs g); [apply class_of_is; exact C|apply classesb_ok; exact CS|apply lastb_ok; exact E1|exact T| | |apply separateb_ok; exact E4|].
  - clear - G. revert g G. induction cs as [|x cs IHc]; intros [|k g] G; try discriminate; constructor; cbn [all2] in G; apply andb_true_iff in G; destruct G as [G1 G2]; auto.
    unfold memb in G1. apply existsb_exists in G1. destruct G1 as (d & I & Q). apply Nat.eqb_eq, number_inj in Q. subst. exact I.
  - apply orb_true_iff in E3. destruct E3 as [E3|E3]; [left; destruct (b_kids t); [reflexivity|discriminate]|right].
    apply andb_true_iff in E3. destruct E3 as [E3 E6]. split; [|intros ->; discriminate]. destruct (takes c) as [|[|] [|]]; try discriminate. reflexivity.
  - clear - IH E5. induction IH as [|d r Pd F IHr]; constructor; apply andb_true_iff in E5; destruct E5; auto.
Qed.
