(** Property C35: property sets. *)
From Coq Require Import String Ascii List Bool PeanoNat Lia.
From Verif Require Import Base Datatypes_Model.
Import ListNotations.

Section Proofs.
Context {V : Type}.
Implicit Types (p q r : @props V) (n m : str).

(** A dictionary has every name once. *)
Definition dict p : Prop := NoDup (map fst p).

Lemma name_eqb_spec a b : reflect (a = b) (name_eqb a b).
Proof. unfold name_eqb. destruct (list_eq_dec ascii_dec a b); now constructor. Qed.
Lemma name_eqb_refl a : name_eqb a a = true.
Proof. destruct (name_eqb_spec a a); congruence. Qed.

Lemma lookup_setattr p n v m : lookup (setattr p n v) m = if name_eqb n m then Some v else lookup p m.
Proof.
  induction p as [|[k w] p IH]; cbn [lookup setattr]; [reflexivity|].
  destruct (name_eqb_spec k n) as [->|N]; cbn [lookup].
  - destruct (name_eqb n m); reflexivity.
  - destruct (name_eqb_spec k m) as [->|N']; [|exact IH]. destruct (name_eqb_spec n m); congruence.
Qed.

Lemma setattr_names p n v : map fst (setattr p n v) = if contains p n then map fst p else map fst p ++ [n].
Proof.
  unfold contains. induction p as [|[k w] p IH]; cbn [setattr lookup map fst]; [reflexivity|].
  destruct (name_eqb_spec k n) as [->|N]; cbn [map fst]; [reflexivity|]. rewrite IH. destruct (lookup p n); reflexivity.
Qed.

Lemma lookup_In p n : lookup p n <> None <-> In n (map fst p).
Proof.
  induction p as [|[k w] p IH]; cbn [lookup map fst In]; [tauto|].
  destruct (name_eqb_spec k n) as [->|N]; [split; [now left|discriminate]|]. rewrite IH. intuition.
Qed.

Lemma setattr_dict p n v : dict p -> dict (setattr p n v).
Proof.
  unfold dict. rewrite setattr_names. unfold contains. destruct (lookup p n) eqn:E; [auto|].
  intros D. assert (X : ~ In n (map fst p)) by (rewrite <- lookup_In; congruence). clear E.
  induction (map fst p) as [|k l IH]; [repeat constructor; auto|].
  inversion_clear D. cbn [app]. cbn [In] in X. constructor; [|apply IH; auto].
  rewrite in_app_iff. cbn. intuition.
Qed.

Lemma update_dict l p : dict p -> dict (update p l).
Proof. revert p. induction l as [|kv l IH]; cbn; [auto|]. intros p D. apply IH. now apply setattr_dict. Qed.

(** The last binding of a name in a list. *)
Lemma lookup_update l p n : dict l -> lookup (update p l) n = match lookup l n with Some v => Some v | None => lookup p n end.
Proof.
  revert p. induction l as [|[k v] l IH]; [reflexivity|]. intros p D. inversion_clear D as [|? ? N D'].
  unfold update in *. cbn [fold_left fst snd lookup]. rewrite IH by exact D'. rewrite lookup_setattr.
  destruct (name_eqb_spec k n) as [->|X]; [|reflexivity].
  destruct (lookup l n) eqn:E; [|reflexivity]. elim N. apply lookup_In. congruence.
Qed.

Lemma lookup_delattr p n m : dict p -> lookup (delattr p n) m = if name_eqb n m then None else lookup p m.
Proof.
  induction p as [|[k w] p IH]; cbn [lookup delattr].
  - now destruct (name_eqb n m).
  - intros D. inversion_clear D as [|? ? N D']. destruct (name_eqb_spec k n) as [->|X].
    + destruct (name_eqb_spec n m) as [->|Y]; [|reflexivity].
      destruct (lookup p m) eqn:E; [|reflexivity]. elim N. apply lookup_In. congruence.
    + cbn [lookup]. rewrite (IH D'). destruct (name_eqb_spec k m) as [->|Y]; [|reflexivity].
      destruct (name_eqb_spec n m); [congruence|reflexivity].
Qed.

Lemma delattr_names p n m : In m (map fst (delattr p n)) -> In m (map fst p).
Proof.
  induction p as [|[k w] p IH]; cbn [delattr map fst In]; [auto|]. destruct (name_eqb k n); cbn [map fst In]; tauto.
Qed.
Lemma delattr_dict p n : dict p -> dict (delattr p n).
Proof.
  unfold dict. induction p as [|[k w] p IH]; cbn [delattr map fst]; [auto|]. intros D. inversion_clear D as [|? ? N D'].
  destruct (name_eqb k n); [exact D'|]. cbn [map fst]. constructor; [|auto]. intros X. apply delattr_names in X. auto.
Qed.

Lemma update_nil l : dict l -> update [] l = l.
Proof.
  intros D. assert (X : forall p, dict (p ++ l) -> update p l = p ++ l).
  { clear D. induction l as [|[k v] l IH]; intros p D; [now rewrite app_nil_r|].
    cbn. replace (setattr p k v) with (p ++ [(k, v)]).
    - unfold update in IH. rewrite IH; rewrite <- app_assoc; [reflexivity|exact D].
    - unfold dict in D. rewrite map_app in D. cbn in D. apply NoDup_remove_2 in D.
      assert (K : ~ In k (map fst p)) by (intros I; apply D; apply in_or_app; now left). clear - K.
      induction p as [|[k' w] p IH]; [reflexivity|]. cbn [app setattr]. cbn in K.
      destruct (name_eqb_spec k' k); [tauto|]. f_equal. apply IH. tauto. }
  exact (X [] D).
Qed.
End Proofs.

(** Adding. The result has the names of both; the right operand wins, also
    with the value None ([Some None] here); nothing else changes.
    Missing for the full claim: a property called "self", with which adding raises TypeError (C35_self_refuted). *)
Theorem C35_add_partial : forall (V : Type) (p q : @props V), dict p -> dict q ->
  lookup p (txt "self") = None -> lookup q (txt "self") = None ->
  exists s, add p q = Ok s /\ dict s /\
    forall n, lookup s n = match lookup q n with Some v => Some v | None => lookup p n end.
Proof.
  intros V p q P Q SP SQ. unfold add, make. rewrite (lookup_update q p _ Q), SQ, SP.
  exists (update [] (update p q)). split; [reflexivity|]. assert (D := update_dict q p P).
  rewrite update_nil by exact D. split; [exact D|]. intros n. now apply lookup_update.
Qed.
Print Assumptions C35_add_partial.

(** Associativity; the empty set is neutral. *)
Theorem C35_assoc : forall (V : Type) (p q r : @props V), dict p -> dict q -> dict r ->
  forall pq qr, add p q = Ok pq -> add q r = Ok qr ->
  exists s t, add pq r = Ok s /\ add p qr = Ok t /\ (forall n, lookup s n = lookup t n) /\ List.length s = List.length t.
Proof.
  intros V p q r P Q R pq qr A1 A2. unfold add, make in A1, A2.
  rewrite (lookup_update q p _ Q) in A1. rewrite (lookup_update r q _ R) in A2.
  destruct (lookup q (txt "self")) eqn:SQ; [discriminate|]. destruct (lookup p (txt "self")) eqn:SP; [discriminate|].
  destruct (lookup r (txt "self")) eqn:SR; [discriminate|].
  rewrite update_nil in A1 by now apply update_dict. rewrite update_nil in A2 by now apply update_dict.
  injection A1 as <-. injection A2 as <-.
  assert (D1 := update_dict q p P). assert (D2 := update_dict r q Q).
  destruct (C35_add_partial V (update p q) r D1 R) as (s & S1 & S2 & S3); [rewrite lookup_update by exact Q; now rewrite SQ|exact SR|].
  destruct (C35_add_partial V p (update q r) P D2) as (t & T1 & T2 & T3); [exact SP|rewrite lookup_update by exact R; now rewrite SR|].
  exists s, t. split; [exact S1|]. split; [exact T1|].
  assert (E : forall n, lookup s n = lookup t n).
  { intros n. rewrite S3, T3, !lookup_update by assumption. now destruct (lookup r n). }
  split; [exact E|]. rewrite <- (map_length fst s), <- (map_length fst t).
  apply Nat.le_antisymm; apply NoDup_incl_length; try assumption; intros n I; apply lookup_In; apply lookup_In in I; congruence.
Qed.
Print Assumptions C35_assoc.

Theorem C35_neutral_partial : forall (V : Type) (p : @props V), dict p -> lookup p (txt "self") = None ->
  add p [] = Ok p /\ add [] p = Ok p.
Proof.
  intros V p D S. unfold add, make. change (update p []) with p. rewrite S, (update_nil p D), S, (update_nil p D). now split.
Qed.
Print Assumptions C35_neutral_partial.

(** Reading, setting and deleting. *)
Theorem C35_access : forall (V : Type) (p : @props V) n v m, dict p ->
  (contains p n = false -> getattr p n = None) /\
  getattr (setattr p n v) n = v /\ contains (setattr p n v) n = true /\
  getattr (delattr p n) n = None /\ contains (delattr p n) n = false /\
  delattr (delattr p n) n = delattr p n /\
  (m <> n -> lookup (setattr p n v) m = lookup p m /\ lookup (delattr p n) m = lookup p m) /\
  dict (setattr p n v) /\ dict (delattr p n) /\
  (truth p = false <-> forall k, contains p k = false).
Proof.
  intros V p n v m D. unfold getattr, contains. rewrite !lookup_setattr, !lookup_delattr, !name_eqb_refl by assumption.
  split; [now destruct (lookup p n)|]. split; [reflexivity|]. split; [reflexivity|]. split; [reflexivity|]. split; [reflexivity|]. split.
  { assert (X : forall q : @props V, lookup q n = None -> delattr q n = q).
    { induction q as [|[k w] q IH]; cbn [lookup delattr]; [reflexivity|]. intros L. destruct (name_eqb k n); [discriminate|]. now rewrite IH. }
    apply X. rewrite lookup_delattr by exact D. now rewrite name_eqb_refl. }
  split. { intros N. destruct (name_eqb_spec n m); [congruence|]. now split. }
  split; [now apply setattr_dict|]. split; [now apply delattr_dict|].
  destruct p as [|[k w] p]; cbn [truth lookup]; [tauto|]. split; [discriminate|]. intros H. specialize (H k). now rewrite name_eqb_refl in H.
Qed.
Print Assumptions C35_access.

(** Two property sets are equal if they have the same names with the same values. *)
Theorem C35_equal : forall (V : Type) (eqb : V -> V -> bool), (forall x y, eqb x y = true <-> x = y) ->
  forall p q : @props V, dict p -> dict q ->
  props_eqb eqb p q = true <-> forall n, lookup p n = lookup q n.
Proof.
  intros V eqb EQ p q P Q. unfold props_eqb. rewrite andb_true_iff, Nat.eqb_eq, forallb_forall.
  assert (OE : forall a b, opt_eqb eqb a b = true <-> a = b).
  { intros [x|] [y|]; cbn; try rewrite EQ; split; congruence. }
  assert (IN : forall (s : @props V), dict s -> forall n v, In (n, v) s <-> lookup s n = Some v).
  { induction s as [|[k w] s IH]; cbn [In lookup]; [split; [tauto|discriminate]|]. intros D n v. inversion_clear D as [|? ? N D'].
    destruct (name_eqb_spec k n) as [->|X].
    - split; [|intros [= ->]; now left]. intros [[= ->]|I]; [reflexivity|]. elim N. apply in_map_iff. now exists (n, v).
    - rewrite <- IH by exact D'. split; [intros [[= -> ->]|I]; [congruence|exact I]|auto]. }
  split.
  - intros [L F] n. destruct (lookup p n) as [v|] eqn:E.
    + apply IN in E; [|exact P]. apply F in E. cbn [fst snd] in E. destruct (lookup q n); [|discriminate]. apply OE in E. congruence.
    + destruct (lookup q n) as [v|] eqn:E'; [|reflexivity]. exfalso.
      assert (S : incl (map fst p) (map fst q)).
      { intros k I. apply in_map_iff in I as ([k' w] & <- & I). apply F in I. cbn [fst snd] in *. apply lookup_In. now destruct (lookup q k'). }
      assert (I : In n (map fst q)) by (apply lookup_In; congruence).
      apply (NoDup_length_incl P) in S; [|now rewrite !map_length, L]. apply S in I. apply lookup_In in I. congruence.
  - intros H. split.
    + rewrite <- (map_length fst p), <- (map_length fst q).
      apply Nat.le_antisymm; apply NoDup_incl_length; try assumption; intros n I; apply lookup_In; apply lookup_In in I; congruence.
    + intros [n v] I. cbn [fst snd]. apply IN in I; [|exact P]. rewrite <- H, I. now apply OE.
Qed.
Print Assumptions C35_equal.

Example C35_witness :
  let p := [(txt "repeat_count", Some 3); (txt "x", Some 1)] in let q := [(txt "unfold", Some 1); (txt "x", None)] in
  dict p /\ dict q /\ add p q = Ok [(txt "repeat_count", Some 3); (txt "x", None); (txt "unfold", Some 1)].
Proof. repeat split; try reflexivity; unfold dict; cbn; repeat constructor; cbn; intuition discriminate. Qed.

(** A property that happens to be called "self" can be set, but then adding fails. *)
Theorem C35_self_refuted : exists p q : @props nat, dict p /\ dict q /\ add p q = Err TypeError.
Proof. exists (setattr [] (txt "self") (Some 1)), []. repeat split; try reflexivity; unfold dict; cbn; repeat constructor; intuition. Qed.
Print Assumptions C35_self_refuted.
