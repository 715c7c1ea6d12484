From Coq Require Import List Arith Bool Lia.
From Verif Require Import Base Build_Model Build_Spec Build_Proofs Signature_Model Signature_Spec Signature_Proofs Convert_Model Convert_Spec.
Import ListNotations.

Lemma test_single : forall k, (forall c, isinstance [k] c = Nat.eqb (number c) (number k)) -> forall n, node_is k n = Nat.eqb (b_ty n) (number k).
Proof.
  intros k H n. unfold node_is, test. destruct (class_of (b_ty n)) as [c|] eqn:C; [apply class_of_is in C; unfold is_class in C; rewrite C; apply H|].
  symmetry. apply Nat.eqb_neq. intros E. rewrite E, class_of_number in C. discriminate.
Qed.
Lemma by_check : forall k, forallb (fun c => Bool.eqb (isinstance [k] c) (Nat.eqb (number c) (number k))) all_classes = true ->
  forall n, node_is k n = Nat.eqb (b_ty n) (number k).
Proof. intros k H. apply test_single. intros c. apply eqb_prop. exact (proj1 (forallb_forall _ _) H c (in_all c)). Qed.
Lemma is_note : forall n, node_is KNote n = Nat.eqb (b_ty n) (number KNote). Proof. apply by_check. vm_compute. reflexivity. Qed.
Lemma is_unpitched : forall n, node_is KUnpitched n = Nat.eqb (b_ty n) (number KUnpitched). Proof. apply by_check. vm_compute. reflexivity. Qed.
Lemma is_duration : forall n, node_is KDuration n = Nat.eqb (b_ty n) (number KDuration). Proof. apply by_check. vm_compute. reflexivity. Qed.
Lemma is_comment_class : forall n c, is_class (b_ty n) c -> is_comment n = comment c.
Proof. intros n c E. unfold is_comment. rewrite E. destruct c; reflexivity. Qed.
Lemma node_is_class : forall n c k, is_class (b_ty n) c -> node_is k n = isinstance [k] c.
Proof. intros n c k E. unfold node_is. rewrite E. apply test_number. Qed.

(** What is done with an argument of a class, and what should be done. *)
Definition act (c : cls) (n : nat) (x : cls) : nat :=
  match pitch_count c with
  | Some k => if Nat.eqb (number x) (number KNote) && (n <? k) then 1 else 0
  | None =>
      if isinstance [KConvertUnpitchedToDuration] c then if Nat.eqb (number x) (number KUnpitched) then 2 else 0
      else if isinstance [KConvertUnpitchedToInt] c then if Nat.eqb (number x) (number KUnpitched) then 3 else 0
      else 0
  end.
Definition role_act (r : role) (x : cls) : nat :=
  match r with
  | As_is => 0
  | As_pitch => if Nat.eqb (number x) (number KNote) then 1 else 0
  | As_duration => if Nat.eqb (number x) (number KUnpitched) then 2 else 0
  | As_number => if Nat.eqb (number x) (number KUnpitched) then 3 else 0
  end.
Definition next (c : cls) (n : nat) (x : cls) : nat :=
  match pitch_count c with None => n | Some _ => if isinstance [KPitchable] x then S n else n end.
Definition skip (c : cls) (g : list (list cls)) (x : cls) : bool :=
  memb c [KTuplet; KScaleDurations; KShiftDurations] && match g with [] => true | _ => false end && Nat.eqb (number x) (number KUnpitched).
Fixpoint role_check (c : cls) (n : nat) (g : list (list cls)) (rs : list role) : bool :=
  match g, rs with
  | [], _ => true
  | k :: g, r :: rs => forallb (fun x => skip c g x || (Nat.eqb (act c n x) (role_act r x) && role_check c (next c n x) g rs)) k
  | _, [] => false
  end.
Lemma role_checks : forallb (fun c => forallb (fun g => role_check c 0 g (roles c (length g))) (takes c)) all_classes = true.
Proof. vm_compute. reflexivity. Qed.

Section P.
Variable to_int : bt -> option bt.
Notation add := (lily_add_argument to_int).
Notation want := (wanted to_int).

Lemma add_keeps : forall p x, b_ty (add p x) = b_ty p.
Proof. intros p x. unfold lily_add_argument. destruct (class_of (b_ty p)); reflexivity. Qed.

Definition apply (a : nat) (n : bt) : bt :=
  match a with 0 => n | 1 => note_to_pitch n | 2 => unpitched_to_duration n | _ => unpitched_to_int to_int n end.

Definition state (c : cls) (kids : list bt) : nat := match pitch_count c with None => 0 | Some _ => length (filter (node_is KPitchable) kids) end.

Lemma converted_act : forall c kids n x, is_class (b_ty n) x -> converted to_int c kids n = apply (act c (state c kids) x) n.
Proof.
  intros c kids n x I. unfold converted, act, state. rewrite is_note, is_unpitched, I.
  destruct (pitch_count c) as [k|]; [destruct (_ && _); reflexivity|].
  destruct (isinstance [KConvertUnpitchedToDuration] c); [destruct (Nat.eqb _ _); reflexivity|].
  destruct (isinstance [KConvertUnpitchedToInt] c); [destruct (Nat.eqb _ _); reflexivity|reflexivity].
Qed.
Lemma first_find : forall l, first_duration l = find (node_is KDuration) l.
Proof. induction l as [|d l IH]; [reflexivity|]. cbn [first_duration find]. rewrite is_duration. destruct (Nat.eqb _ _); [reflexivity|exact IH]. Qed.
Lemma given_act : forall r n x, is_class (b_ty n) x -> given to_int r n = apply (role_act r x) n.
Proof.
  intros r n x I. destruct r; cbn [given role_act]; [reflexivity| | |]; unfold a_pitch, a_duration, a_number; rewrite I; destruct (Nat.eqb _ _); cbn [apply]; try reflexivity.
  unfold unpitched_to_int. rewrite first_find. reflexivity.
Qed.

Lemma state_next : forall c kids n x, is_class (b_ty n) x -> state c (kids ++ [apply (act c (state c kids) x) n]) = next c (state c kids) x.
Proof.
  intros c kids n x I. unfold state, next, act. destruct (pitch_count c) as [k|]; [|reflexivity].
  rewrite filter_app, app_length. cbn [filter].
  assert (E : node_is KPitchable (apply (if Nat.eqb (number x) (number KNote) && (length (filter (node_is KPitchable) kids) <? k) then 1 else 0) n) = isinstance [KPitchable] x).
  { destruct (Nat.eqb (number x) (number KNote)) eqn:N; cbn [andb]; [|cbn [apply]; apply node_is_class; exact I].
    apply Nat.eqb_eq, number_inj in N. subst x. destruct (_ <? k); cbn [apply]; [reflexivity|apply node_is_class; exact I]. }
  rewrite E. destruct (isinstance [KPitchable] x); cbn [length]; lia.
Qed.

Lemma wanted_type : forall d, b_ty (want d) = b_ty (d_node d).
Proof. intros [t l]. reflexivity. Qed.

Lemma only_comments : forall l cs, argument_classes l cs -> cs = [] -> last_not_comment l -> l = [].
Proof.
  intros l cs A E L. destruct l as [|d l]; [reflexivity|exfalso]. destruct (exists_last (l := d :: l) ltac:(discriminate)) as (p & d' & El). rewrite El in *.
  assert (Q : forall l cs, argument_classes l cs -> cs = [] -> forall p d, l = p ++ [d] -> exists c, is_class (b_ty (d_node d)) c /\ comment c = true).
  { clear. induction 1 as [|d l cs c I C A IH|d l cs c I C A IH]; intros Z p x E; [destruct p; discriminate| |discriminate].
    destruct p as [|y p]; injection E; intros; subst; [eauto|]. eapply IH; eauto. }
  destruct (Q _ _ A E p d' eq_refl) as (c' & Ic & Cc). rewrite (L p d' c' eq_refl Ic) in Cc. discriminate.
Qed.

Lemma act_comment : forall c n x, comment x = true -> act c n x = 0 /\ isinstance [KPitchable] x = false.
Proof.
  intros c n x C. assert (N : Nat.eqb (number x) (number KNote) = false /\ Nat.eqb (number x) (number KUnpitched) = false /\ isinstance [KPitchable] x = false)
    by (destruct x; try discriminate; repeat split; reflexivity).
  destruct N as (N1 & N2 & N3). split; [|exact N3]. unfold act. rewrite N1, N2. destruct (pitch_count c); [reflexivity|]. destruct (isinstance _ c); [reflexivity|]. destruct (isinstance _ c); reflexivity.
Qed.

Lemma go_wanted : forall added cs, argument_classes added cs -> forall c p g rs,
  class_of (b_ty p) = Some c -> Forall2 (fun c k => In c k) cs g -> role_check c (state c (b_kids p)) g rs = true ->
  Forall (fun d => made add d = want d) added -> last_not_comment added ->
  (forall q d, In c [KTuplet; KScaleDurations; KShiftDurations] -> added = q ++ [d] -> ~ is_class (b_ty (d_node d)) KUnpitched) ->
  go_made add p added = B (b_id p) (b_ty p) (b_kids p ++ give to_int rs (map want added)).
Proof.
  induction 1 as [|d l cs x I C A IH|d l cs x I C A IH]; intros c p g rs P F RC M L NB.
  - cbn. rewrite app_nil_r. destruct p; reflexivity.
  - cbn [go_made map give]. assert (Iw : is_class (b_ty (want d)) x) by (unfold is_class in *; rewrite wanted_type; exact I).
    rewrite (is_comment_class _ _ Iw), C, (Forall_inv M).
    assert (S1 : add p (want d) = B (b_id p) (b_ty p) (b_kids p ++ [want d])).
    { unfold lily_add_argument. rewrite P, (converted_act _ _ _ _ Iw). destruct (act_comment c (state c (b_kids p)) x C) as [-> _]. reflexivity. }
    rewrite S1. rewrite (IH c _ g rs); cbn [b_ty b_id b_kids]; auto.
    + rewrite <- app_assoc. reflexivity.
    + pose proof (state_next c (b_kids p) (want d) x Iw) as SN. destruct (act_comment c (state c (b_kids p)) x C) as [E1 E2]. rewrite E1 in SN. cbn [apply] in SN.
      rewrite SN. unfold next. rewrite E2. destruct (pitch_count c); exact RC.
    + exact (Forall_inv_tail M).
    + intros q y c' E. apply (L (d :: q) y c'). rewrite E. reflexivity.
    + intros q y Ic E. apply (NB (d :: q) y Ic). rewrite E. reflexivity.
  - inversion F as [|? k ? g' Ix F']; subst. cbn [go_made map give]. assert (Iw : is_class (b_ty (want d)) x) by (unfold is_class in *; rewrite wanted_type; exact I).
    assert (L' : last_not_comment l) by (intros q y c' E; apply (L (d :: q) y c'); rewrite E; reflexivity).
    rewrite (is_comment_class _ _ Iw), C, (Forall_inv M). destruct rs as [|r rs]; [discriminate|]. cbn [role_check] in RC.
    apply (proj1 (forallb_forall _ _)) with (x := x) in RC; [|exact Ix]. apply orb_true_iff in RC. destruct RC as [RC|RC].
    + exfalso. unfold skip in RC. rewrite !andb_true_iff in RC. destruct RC as ((R1 & R2) & R3). destruct g' as [|]; [|discriminate]. inversion F'; subst.
      assert (l = []) by (eapply only_comments; eauto). subst l. apply Nat.eqb_eq, number_inj in R3. subst x.
      apply (NB [] d); [|reflexivity|exact I]. unfold memb in R1. apply existsb_exists in R1. destruct R1 as (c' & I1 & I2). apply Nat.eqb_eq, number_inj in I2. subst. exact I1.
    + apply andb_true_iff in RC. destruct RC as [R1 R2]. apply Nat.eqb_eq in R1.
      assert (S1 : add p (want d) = B (b_id p) (b_ty p) (b_kids p ++ [given to_int r (want d)])).
      { unfold lily_add_argument. rewrite P, (converted_act _ _ _ _ Iw), (given_act _ _ _ Iw), R1. reflexivity. }
      rewrite S1. rewrite (IH c _ g' rs); cbn [b_ty b_id b_kids]; auto.
      * rewrite <- app_assoc. reflexivity.
      * rewrite (given_act _ _ _ Iw), <- R1, (state_next c (b_kids p) (want d) x Iw). exact R2.
      * exact (Forall_inv_tail M).
      * intros q y Ic E. apply (NB (d :: q) y Ic). rewrite E. reflexivity.
Qed.

Lemma count_args : forall l cs, argument_classes l cs -> length (filter (fun d => negb (is_comment (d_node d))) l) = length cs.
Proof.
  induction 1 as [|d l cs x I C A IH|d l cs x I C A IH]; [reflexivity| |]; cbn [filter]; rewrite (is_comment_class _ _ I), C; cbn [negb length]; auto.
Qed.

Lemma made_wanted : forall d, complete d -> no_bare d -> made add d = want d.
Proof.
  induction d as [t l IH] using dt_ind2. intros C N. apply complete_inv in C. destruct C as (c & cs & g & I & A & L & T & F & K & S & CC).
  inversion N as [? ? N1 N2]; subst. rewrite (made_eq add). cbn [wanted].
  destruct K as [K|[-> _]].
  2:{ cbn. rewrite app_nil_r. destruct t; reflexivity. }
  assert (P : class_of (b_ty t) = Some c) by (unfold is_class in I; rewrite I; apply class_of_number).
  unfold class_roles. rewrite P, (count_args _ _ A), (Forall2_len _ _ _ F).
  apply (go_wanted _ _ A c t g); auto.
  - unfold state. rewrite K. cbn [filter length]. pose proof (proj1 (forallb_forall _ _) role_checks c (in_all c)) as Q. cbn beta in Q.
    apply (proj1 (forallb_forall _ _)) with (x := g) in Q; [|exact T]. destruct (pitch_count c); exact Q.
  - clear - IH CC N2. induction IH as [|d r Pd Fr IHr]; constructor; [apply Pd; [exact (Forall_inv CC)|exact (Forall_inv N2)]|apply IHr; [exact (Forall_inv_tail CC)|exact (Forall_inv_tail N2)]].
  - intros q d Ic E. apply (N1 c q d); assumption.
Qed.

Theorem music_created : forall ds, Forall complete ds -> separate ds -> Forall no_bare ds ->
  create_music to_int (flat_map nodes_of ds) = Ok (map want ds).
Proof.
  intros ds C S N. unfold create_music. rewrite made_complete; [|exact lily_sensible|exact add_keeps| |apply separate_greedy; assumption].
  - f_equal. apply map_ext_in. intros d I. apply made_wanted; [exact (proj1 (Forall_forall _ _) C d I)|exact (proj1 (Forall_forall _ _) N d I)].
  - eapply Forall_impl; [|exact C]. exact complete_valid.
Qed.
End P.
