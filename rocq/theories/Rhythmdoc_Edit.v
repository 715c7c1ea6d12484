(** Property C134: the text of a document after any edit of its durations. *)
From Coq Require Import String Ascii List Arith PeanoNat ZArith QArith Bool Lia.
From Verif Require Import Base Heads_Model Element_Model Element_Spec Element_Proofs Element_Edits Element_Props Writeback_Model Writeback_Props Writeback_Local Writeback_Remove Writeback_Mixed.
From Verif Require Import Duration_Model Rhythm_Model Rhythm_Proofs Rhythmdoc_Model Rhythmdoc_Props.
Import ListNotations.
Open Scope nat_scope.

(** ** Specification *)

(** A value [v], written as [write] tells, that was changed to [v'], and the elements. *)
Inductive value_set (write : Q -> res str) (a : attrs) (v : Q) : attrs -> Q -> Prop :=
| value_same v' : (v' == v)%Q -> value_set write a v a v'
| value_other a' v' t : ~ (v' == v)%Q -> write v' = Ok t -> retexted a a' t -> value_set write a v a' v'.
Definition new_with (write : Q -> res str) (d : attrs * Q) : Prop := exists t, write (snd d) = Ok t /\ fresh (fst d) t.
Definition scaling_text (q : Q) : res str := Ok (if Qeq_bool q 1 then [] else "*"%char :: str_fraction q).

(** The scalings of a Duration before and after. *)
Inductive scaling_set : list (attrs * Q) -> list (attrs * Q) -> Prop :=
| scaling_removed s : scaling_set s []
| scaling_added d : new_with scaling_text d -> scaling_set [] [d]
| scaling_changed a q a' q' : value_set scaling_text a q a' q' -> scaling_set [(a, q)] [(a', q')].

(** The Durations of a node before and after. *)
Inductive duration_set : list ddur -> list ddur -> Prop :=
| duration_removed d r : duration_set (d :: r) r
| duration_added d s : new_with Duration_Model.to_string d -> Forall (new_with scaling_text) s -> duration_set [] [(d, s)]
| duration_changed a h s r a' h' s' : value_set Duration_Model.to_string a h a' h' -> scaling_set s s' -> duration_set ((a, h, s) :: r) ((a', h', s') :: r).

(** Only Durations of nodes in the range are changed, added or removed.  Nodes are
    given by the way to them from the root. *)
Inductive touched (inr : list nat -> bool) : list nat -> rdoc -> rdoc -> Prop :=
| touched_node path k b a n durs durs' kids kids' : durs' = durs \/ inr path = true /\ duration_set durs durs' ->
    touched_all inr path 0 kids kids' -> touched inr path (RD k b a n durs kids) (RD k b a n durs' kids')
with touched_all (inr : list nat -> bool) : list nat -> nat -> list rdoc -> list rdoc -> Prop :=
| touched_nil path i : touched_all inr path i [] []
| touched_cons path i d d' r r' : touched inr (path ++ [i]) d d' -> touched_all inr path (S i) r r' ->
    touched_all inr path i (d :: r) (d' :: r').

(** A document as it was read: nothing is modified and a Duration has at most one scaling. *)
Inductive as_read : rdoc -> Prop :=
| as_read_node k b a n durs kids : a_head_modified a = false ->
    Forall (fun d => a_head_modified (fst (fst d)) = false /\ List.length (snd d) <= 1 /\ Forall (fun s => a_head_modified (fst s) = false) (snd d)) durs ->
    Forall as_read kids -> as_read (RD k b a n durs kids).

(** All durations can be written (with dots, and not too long or short). *)
Inductive expressible : rn -> Prop :=
| expressible_node k b durs kids : Forall (fun d => exists s, Duration_Model.to_string (fst d) = Ok s) durs -> Forall expressible kids ->
    expressible (RN k b durs kids).

(** The functions of rhythm.py that edit a document. *)
Inductive rhythm_edit :=
| Removal (o : removal) | ImplicitPerLine | Explicit | Transformed (t : transform) | Pasted (durations : list (option (Q * Q))) (cycle : bool).
Definition edit_of (o : rhythm_edit) : (list nat -> bool) -> rn -> res rn :=
  match o with
  | Removal o => removal_of o
  | ImplicitPerLine => fun inr => implicit inr true
  | Explicit => explicit
  | Transformed t => fun inr => rtransform inr t
  | Pasted durations cycle => fun inr => paste inr durations cycle
  end.

(** ** Proofs *)

(** What an edit may do to the durations of a node, whose Durations have one scaling at most. *)
Inductive step : list dnode -> list dnode -> Prop :=
| step_drop x r : step (x :: r) r
| step_put p : step [] [p]
| step_change h s r h' s' : (List.length s <= 1 -> List.length s' <= 1) -> step ((h, s) :: r) ((h', s') :: r).

Lemma less_step durs durs' : less durs durs' -> step durs durs'.
Proof.
  destruct 1 as [x r|h s r]; [constructor|]. apply step_change. destruct s as [|x [|y s]]; cbn; lia.
Qed.

Lemma set_scaling_step v h s r l : set_scaling v ((h, s) :: r) = Ok l -> exists s', l = (h, s') :: r /\ (List.length s <= 1 -> List.length s' <= 1).
Proof.
  unfold set_scaling. destruct s as [|x s]; destruct (one_or_none v); intros [= <-].
  - exists []. now split.
  - destruct v as [v|]; [exists [v]|exists []]; cbn; auto.
  - eexists. split; [reflexivity|]. destruct s; cbn; lia.
  - eexists. split; [reflexivity|]. destruct s as [|y s]; cbn; lia.
Qed.

Lemma set_duration_scaling_step v durs l : set_duration_scaling (Some v) durs = Ok l -> step durs l.
Proof.
  destruct v as [d s]. cbn [set_duration_scaling]. intros H. destruct durs as [|[h q] r]; cbn [set_duration] in H.
  - destruct (set_scaling_step _ _ _ _ _ H) as (s' & -> & _). apply step_put.
  - destruct (set_scaling_step _ _ _ _ _ H) as (s' & -> & L). now apply step_change.
Qed.

Lemma edit_steps o inr t t' : edit_of o inr t = Ok t' -> became step inr [] t t'.
Proof.
  assert (Y : forall R R' : list dnode -> list dnode -> Prop, (forall a b, R a b -> R' a b) -> forall inr x p y, became R inr p x y -> became R' inr p x y).
  { clear. intros R R' RR inr x. induction x as [k b durs kids IH] using rn_ind2. intros p y H. inversion H as [? ? ? ? ? ? kids' D K]; subst.
    constructor; [destruct D as [->|[I L]]; auto|].
    clear - IH K. revert K. generalize 0. revert kids'. induction IH as [|c r IC _ IHr]; intros kids' i K; inversion K; subst; constructor; auto. }
  assert (X : forall St (f : process St) st, (forall right before n st st' durs', f right before n st = Ok (st', durs') -> durs' = durs_of n \/ step (durs_of n) durs') ->
    (let! (_, t) := Rhythm_Model.edit f inr st t in Ok t) = Ok t' -> became step inr [] t t').
  { intros St f st F H. destruct (Rhythm_Model.edit f inr st t) as [[st' t1]|] eqn:E; [|discriminate]. cbn [bindr] in H. injection H as <-.
    exact (edit_became' step f inr st st' t t1 F E). }
  assert (OD : forall St right before n (st st' : St) durs' (f : process St),
    (forall durs', f right before n st = Ok (st', durs') -> durs' = durs_of n \/ step (durs_of n) durs') ->
    on_durables f right before n st = Ok (st', durs') -> durs' = durs_of n \/ step (durs_of n) durs').
  { intros St right before n st st' durs' f H. unfold on_durables. destruct (yielded n); [apply H|]. intros [= <- <-]. now left. }
  assert (DD : forall durs, del_duration durs = durs \/ step durs (del_duration durs)).
  { intros [|x r]; [now left|right; constructor]. }
  destruct o as [o| | |tr|ds cy]; cbn [edit_of].
  - intros H. apply (Y less step less_step). exact (removal_became o inr t t' H).
  - unfold implicit. apply X. intros right before n st st' durs'. apply OD. clear durs'. intros durs'. cbv beta zeta.
    destruct (duration_scaling (durs_of n)) as [dur|].
    + match goal with |- (if ?c then _ else _) = _ -> _ => destruct c end; [intros [= <- <-]; apply DD|].
      destruct (sets_previous (kind_of n)); intros [= <- <-]; now left.
    + destruct (blk_of n) as [bl|], st as [[p b]|]; try (intros [= <- <-]; now left).
      match goal with |- (if ?c then _ else _) = _ -> _ => destruct c end; [|intros [= <- <-]; now left].
      destruct (set_duration_scaling (Some p) (durs_of n)) as [l|] eqn:E; [|discriminate]. intros [= <- <-]. right. exact (set_duration_scaling_step _ _ _ E).
  - unfold explicit. apply X. intros right before n st st' durs'. apply OD. clear durs'. intros durs'. cbv beta zeta.
    destruct (durs_of n) as [|d r]; [|intros [= <- <-]; now left].
    intros [= <- <-]. right. constructor.
  - unfold rtransform. apply X. intros right before n st st' durs'. unfold p_transform.
    destruct (handles (kind_of n)); [|intros [= <- <-]; now left].
    destruct (duration_scaling (durs_of n)) as [[d s]|] eqn:DS; [|intros [= <- <-]; now left].
    destruct (transform_apply tr d s) as [[d' s']|]; [|discriminate]. cbn [bindr].
    assert (T : Ok (st, set_duration (Some d') (durs_of n)) = Ok (st', durs') -> durs' = durs_of n \/ step (durs_of n) durs').
    { intros [= <- <-]. right. destruct (durs_of n) as [|[h q] r]; [discriminate|]. cbn [set_duration]. now apply step_change. }
    assert (Z : (let! l := set_duration_scaling (Some (d', s')) (durs_of n) in Ok (st, l)) = Ok (st', durs') -> durs' = durs_of n \/ step (durs_of n) durs').
    { destruct (set_duration_scaling (Some (d', s')) (durs_of n)) as [l|] eqn:E; [|discriminate]. intros [= <- <-]. right. exact (set_duration_scaling_step _ _ _ E). }
    destruct (kind_of n); assumption.
  - unfold paste. apply X. intros right before n [i prev] st' durs'. apply OD. clear durs'. intros durs'. cbv beta zeta.
    match goal with |- (match ?c with Some _ => _ | None => _ end) = _ -> _ => destruct c as [[d|]|] end; [| |intros [= <- <-]; now left].
    + destruct (set_duration_scaling (Some d) (durs_of n)) as [l|] eqn:E; [|discriminate]. intros [= <- <-]. right. exact (set_duration_scaling_step _ _ _ E).
    + destruct (may_remove right n); [intros [= <- <-]; apply DD|]. destruct prev as [p|]; [|intros [= <- <-]; now left].
      destruct (set_duration_scaling (Some p) (durs_of n)) as [l|] eqn:E; [|discriminate]. intros [= <- <-]. right. exact (set_duration_scaling_step _ _ _ E).
Qed.

Section Put.
Variables duration_id scaling_id : nat.

Fixpoint rset_all (l : list rdoc) (ts : list rn) : list rdoc :=
  match l, ts with x :: l, t :: ts => rset duration_id scaling_id x t :: rset_all l ts | _, _ => [] end.
Lemma rset_eq k b a n durs kids t : rset duration_id scaling_id (RD k b a n durs kids) t =
  RD k b a n (put_duration duration_id scaling_id durs (durs_of t)) (rset_all kids (kids_of t)).
Proof. reflexivity. Qed.

Definition single (d : ddur) : Prop := List.length (snd d) <= 1.

Lemma set_value_same a q text : set_value a q q text = a.
Proof. unfold set_value. assert (Qeq_bool q q = true) as -> by (apply Qeq_bool_iff; reflexivity). reflexivity. Qed.

Lemma put_same durs : Forall single durs -> put_duration duration_id scaling_id durs (map dvalue durs) = durs.
Proof.
  intros F. unfold put_duration. rewrite map_length, Nat.ltb_irrefl. destruct durs as [|[[a h] s] r]; [reflexivity|].
  cbn [map]. unfold dvalue at 1. cbn [fst snd]. rewrite set_value_same. do 2 f_equal.
  pose proof (Forall_inv F) as L. unfold single in L. cbn [snd] in L. destruct s as [|[b q] [|y s]]; cbn [map put_scaling snd]; [reflexivity| |cbn in L; lia].
  now rewrite set_value_same.
Qed.

Lemma put_step durs ds : Forall single durs -> step (map dvalue durs) ds -> map dvalue (put_duration duration_id scaling_id durs ds) = ds.
Proof.
  intros F S. destruct durs as [|[[a h] s] r]; cbn [map] in S.
  - inversion S as [|p|]; subst. unfold put_duration. cbn [List.length Nat.ltb Nat.leb map]. f_equal. destruct p as [q l].
    unfold dvalue, new_duration. cbn [fst snd]. f_equal. rewrite map_map. cbn [new_scaling snd]. apply map_id.
  - unfold dvalue at 1 in S. cbn [fst snd] in S. inversion S as [| |? ? ? h' s' L]; subst; unfold put_duration; cbn [List.length]; rewrite map_length.
    + destruct (Nat.ltb_spec (List.length r) (Datatypes.S (List.length r))); [reflexivity|lia].
    + rewrite Nat.ltb_irrefl. cbn [map]. f_equal. unfold dvalue. cbn [fst snd]. f_equal.
      pose proof (Forall_inv F) as L1. unfold single in L1. cbn [snd] in L1. rewrite map_length in L. specialize (L L1).
      destruct s' as [|v [|y s']]; [now destruct s as [|[b q] s]|now destruct s as [|[b q] s]|cbn in L; lia].
Qed.

Lemma set_value_spec write a v v' t : write v' = Ok t -> value_set write a v (set_value a v v' (write v')) v'.
Proof.
  intros W. unfold set_value. destruct (Qeq_bool v' v) eqn:E.
  - apply value_same. now apply Qeq_bool_iff.
  - apply (value_other _ _ _ _ _ t); [|exact W|now repeat split]. intros X. apply Qeq_bool_iff in X. congruence.
Qed.
Lemma new_scaling_with v : new_with scaling_text (new_scaling scaling_id v).
Proof. exists (scaling_write v). now repeat split. Qed.
Lemma put_set durs (ds : list dnode) : Forall single durs -> Forall (fun d => exists s, Duration_Model.to_string (fst d) = Ok s) ds ->
  step (map dvalue durs) ds -> duration_set durs (put_duration duration_id scaling_id durs ds).
Proof.
  intros F X S. destruct durs as [|[[a h] s] r]; cbn [map] in S.
  - inversion S as [|p|]; subst. destruct p as [q l]. destruct (Forall_inv X) as (t & E). unfold put_duration. cbn [List.length Nat.ltb Nat.leb]. unfold new_duration. cbn [fst snd] in *.
    apply duration_added; [exists t; now repeat split|]. apply Forall_forall. intros d I. apply in_map_iff in I. destruct I as (v & <- & _). apply new_scaling_with.
  - unfold dvalue at 1 in S. cbn [fst snd] in S. inversion S as [| |? ? ? h' s' L]; subst; unfold put_duration; cbn [List.length]; rewrite map_length.
    + destruct (Nat.ltb_spec (List.length r) (Datatypes.S (List.length r))); [apply duration_removed|lia].
    + rewrite Nat.ltb_irrefl. destruct (Forall_inv X) as (t & E). cbn [fst] in E. apply duration_changed; [exact (set_value_spec _ _ _ _ _ E)|].
      pose proof (Forall_inv F) as L1. unfold single in L1. cbn [snd] in L1.
      destruct s as [|[b q] [|y s]], s' as [|v s']; cbn [put_scaling]; try apply scaling_removed; [apply scaling_added, new_scaling_with| |cbn in L1; lia].
      apply scaling_changed. exact (set_value_spec scaling_text b q v _ eq_refl).
Qed.

Lemma rset_touched inr d : as_read d -> forall path t, expressible t -> became step inr path (rhythm d) t ->
  rhythm (rset duration_id scaling_id d t) = t /\ touched inr path d (rset duration_id scaling_id d t).
Proof.
  induction d as [k b a n durs kids IH] using rdoc_ind2. intros AR path t EX B. inversion AR as [? ? ? ? ? ? A1 A2 A3]; subst.
  assert (SG : Forall single durs) by (revert A2; apply Forall_impl; intros d H; apply H).
  cbn [rhythm] in B. inversion B as [? ? ? ? durs' ? kids' D K]; subst. inversion EX as [? ? ? ? XD XK]; subst.
  rewrite rset_eq. cbn [durs_of kids_of rhythm].
  assert (X : map rhythm (rset_all kids kids') = kids' /\ touched_all inr path 0 kids (rset_all kids kids')).
  { clear - IH K A3 XK. revert K. generalize 0. revert kids' XK. induction IH as [|c r IC _ IHr]; intros kids' XK i K; cbn [map] in K; inversion K as [|? ? ? ? ? ? KC KR]; subst; cbn [rset_all map].
    - split; [reflexivity|constructor].
    - inversion A3 as [|? ? AC ARR]; subst. inversion XK as [|? ? XC XR]; subst. destruct (IC AC _ _ XC KC) as [E1 E2]. destruct (IHr ARR _ XR _ KR) as [E3 E4]. split; [now rewrite E1, E3|now constructor]. }
  destruct X as [X1 X2]. rewrite X1.
  destruct D as [->|[I L]].
  - rewrite put_same by exact SG. split; [reflexivity|]. constructor; [now left|exact X2].
  - rewrite put_step by assumption. split; [reflexivity|]. constructor; [right; split; [exact I|now apply put_set]|exact X2].
Qed.

Lemma same_origin_set a old new text s : a_head_modified a = false -> text = Ok s -> same_origin a (set_value a old new text).
Proof. intros M ->. unfold set_value. destruct (Qeq_bool new old); [now apply same_origin_refl|]. repeat split. cbn. eauto. Qed.

Definition clean (d : ddur) : Prop := a_head_modified (fst (fst d)) = false /\ Forall (fun s => a_head_modified (fst s) = false) (snd d).
Lemma scaling_same s : Forall (fun s : attrs * Q => a_head_modified (fst s) = false) s -> reworked_all (map scaling_element s) (map scaling_element s).
Proof. induction 1; cbn [map]; constructor; [|assumption]. constructor; [now apply same_origin_refl|constructor]. Qed.
Lemma duration_same d : clean d -> reworked (duration_element d) (duration_element d).
Proof. intros [C1 C2]. constructor; [now apply same_origin_refl|now apply scaling_same]. Qed.
Lemma durations_same r : Forall clean r -> reworked_all (map duration_element r) (map duration_element r).
Proof. induction 1; cbn [map]; constructor; [now apply duration_same|assumption]. Qed.
Lemma new_scaling_new v : brand_new (scaling_element (new_scaling scaling_id v)).
Proof. now apply (brand_new_node _ _ (scaling_write v)). Qed.

Lemma put_reworked durs (ds : list dnode) : Forall clean durs -> Forall (fun d => exists s, Duration_Model.to_string (fst d) = Ok s) ds ->
  reworked_all (map duration_element durs) (map duration_element (put_duration duration_id scaling_id durs ds)).
Proof.
  intros C E. unfold put_duration. match goal with |- context [if ?c then _ else _] => destruct c end.
  { destruct durs as [|x r]; [constructor|]. cbn [tl map]. apply reworked_drop, durations_same. exact (Forall_inv_tail C). }
  destruct durs as [|[[a h] s] r], ds as [|[h' s'] ds]; try (apply durations_same; exact C).
  - cbn [map]. apply reworked_add; [|constructor]. destruct (Forall_inv E) as (t & T).
    apply (brand_new_node _ _ t); try reflexivity; [exact T|]. apply Forall_forall. intros e I. apply in_map_iff in I. destruct I as (x & <- & I).
    cbn [new_duration snd] in I. apply in_map_iff in I. destruct I as (v & <- & _). apply new_scaling_new.
  - cbn [map]. apply reworked_keep; [|apply durations_same; exact (Forall_inv_tail C)].
    destruct (Forall_inv C) as [C1 C2]. cbn [fst snd] in C1, C2. destruct (Forall_inv E) as (t & T). cbn [fst] in T.
    unfold duration_element. cbn [fst snd]. constructor; [now apply (same_origin_set _ _ _ _ t)|].
    assert (GONE : forall l, reworked_all l []) by (induction l; constructor; assumption).
    destruct s as [|[b q] s], s' as [|v s']; cbn [put_scaling map].
    + constructor.
    + apply reworked_add; [apply new_scaling_new|constructor].
    + apply GONE.
    + apply reworked_keep; [|apply GONE]. unfold scaling_element at 1 2. cbn [fst]. constructor; [|constructor].
      apply (same_origin_set _ _ _ _ (scaling_write v)); [exact (Forall_inv C2)|reflexivity].
Qed.

Lemma rset_reworked inr d : as_read d -> forall path t, expressible t -> became step inr path (rhythm d) t ->
  reworked (relements d) (relements (rset duration_id scaling_id d t)).
Proof.
  induction d as [k b a n durs kids IH] using rdoc_ind2. intros AR path t X B. inversion AR as [? ? ? ? ? ? A1 A2 A3]; subst.
  cbn [rhythm] in B. inversion B as [? ? ? ? durs' ? kids' D K]; subst. inversion X as [? ? ? ? XD XK]; subst.
  rewrite rset_eq. cbn [durs_of kids_of relements]. apply reworked_node; [now apply same_origin_refl|].
  assert (Y : forall m, reworked_all (firstn m (map relements kids)) (firstn m (map relements (rset_all kids kids'))) /\
    reworked_all (skipn m (map relements kids)) (skipn m (map relements (rset_all kids kids')))).
  { clear - IH K A3 XK. revert K. generalize 0. revert kids' XK. induction IH as [|c r IC _ IHr]; intros kids' XK i K m; cbn [map] in K; inversion K as [|? ? ? ? ? ? KC KR]; subst; cbn [rset_all map].
    - destruct m; split; constructor.
    - inversion A3 as [|? ? AC ARR]; subst. inversion XK as [|? ? XC XR]; subst. destruct m as [|m]; cbn [firstn skipn].
      + split; [constructor|]. apply reworked_keep; [exact (IC AC _ _ XC KC)|]. destruct (IHr ARR _ XR _ KR 0) as [_ Z]. exact Z.
      + destruct (IHr ARR _ XR _ KR m) as [Z1 Z2]. split; [apply reworked_keep; [exact (IC AC _ _ XC KC)|exact Z1]|exact Z2]. }
  destruct (Y n) as [Y1 Y2]. apply reworked_app; [exact Y1|]. apply reworked_app; [|exact Y2].
  apply put_reworked; [|exact XD]. revert A2. apply Forall_impl. intros d H. split; apply H.
Qed.
End Put.

(** ** Theorems *)

(** The elements after one of the functions of rhythm.py and edit(): only Durations
    of nodes in the range are changed, added or removed, and the nodes have the
    rhythm that was computed; the text is changed as [worked] tells (see
    C133_text): Durations and scalings that are changed are replaced in their place,
    new ones inserted, and removed ones deleted. *)
Theorem C134_text : forall duration_id scaling_id o inr d t concat_space ps doc context start end_,
  let ctx := match context with Some c => c | None => d_root doc end in
  let pos := match start with Some s => s | None => x_pos ctx end in
  let stop := match end_ with Some s => s | None => x_end ctx end in
  edit_of o inr (rhythm d) = Ok t -> as_read d -> expressible t ->
  d_pending doc = [] -> points concat_space (relements d) = Ok ps ->
  tokens_from 0 (x_tokens ctx) -> cuts_no_token (x_tokens ctx) pos -> placed (x_tokens ctx) pos ps ->
  untouched (x_tokens ctx) pos [] ps -> whole_tokens (x_tokens ctx) ps -> stop <= last_end pos ps -> last_end pos ps <= List.length (d_text doc) ->
  let d' := rset duration_id scaling_id d t in
  rhythm d' = t /\ touched inr [] d d' /\
  exists ps' cs, points concat_space (relements d') = Ok ps' /\ worked stop pos [] None ps ps' cs /\ in_order 0 cs /\
    Writeback_Model.edit concat_space (relements d') doc context start end_ = (Doc (apply_changes (d_text doc) 0 cs) (d_root doc) [], Ok (List.length cs)).
Proof.
  intros di si o inr d t cs0 ps doc ctx start end_ x pos stop H AR EX PE P T C PL U WT L LT d'.
  pose proof (edit_steps o inr _ _ H) as B. destruct (rset_touched di si inr d AR [] t EX B) as [E1 E2]. split; [exact E1|]. split; [exact E2|].
  exact (C133_text cs0 _ _ ps doc ctx start end_ PE P T C PL U WT L LT (rset_reworked di si inr d AR [] t EX B)).
Qed.
Print Assumptions C134_text.

(** [{ c4 d e8*1/2 }] with explicit(), a transformation and a rhythm that is pasted. *)
Local Open Scope string_scope. Local Open Scope list_scope. Open Scope nat_scope.
Definition re_tokens : list token := [Tok 0 1; Tok 2 3; Tok 3 4; Tok 5 6; Tok 7 8; Tok 8 9; Tok 9 13; Tok 14 15].
Definition re_doc : rdoc :=
  RD (KOther true true) None
    (Attrs Block 0 (Ok (txt "{")) (txt "}") (Some [Tok 0 1]) (Some [Tok 14 15]) false false [] (txt " ") (txt " ") (txt " ") []) 0 []
  [rd_note "c" (Tok 2 3) [(rd_attrs 3 "4" (Tok 3 4), 1 # 4, [])];
   rd_note "d" (Tok 5 6) [];
   rd_note "e" (Tok 7 8) [(rd_attrs 3 "8" (Tok 8 9), 1 # 8, [(rd_attrs 4 "*1/2" (Tok 9 13), 1 # 2)])]]%Q.
Definition re_text (o : rhythm_edit) : str :=
  match edit_of o (fun _ => true) (rhythm re_doc) with
  | Ok t => d_text (fst (Writeback_Model.edit concat_default (relements (rset 3 4 re_doc t)) (Doc (txt "{ c4 d e8*1/2 }") (Context 0 15 re_tokens) []) None None None))
  | Err _ => []
  end.

Example C134_witness :
  as_read re_doc /\
  (exists ps, points concat_default (relements re_doc) = Ok ps /\ tokens_from 0 re_tokens /\ cuts_no_token re_tokens 0 /\
    placed re_tokens 0 ps /\ untouched re_tokens 0 [] ps /\ whole_tokens re_tokens ps /\ last_end 0 ps = 15) /\
  (forall o, In o [Explicit; ImplicitPerLine; Pasted [Some (1 # 2, 1 # 1); None; Some (3 # 8, 2 # 1)]%Q false; Transformed (Transform 1 0 1)] ->
     exists t, edit_of o (fun _ => true) (rhythm re_doc) = Ok t /\ expressible t) /\
  re_text Explicit = txt "{ c4 d4 e8*1/2 }" /\
  re_text (Pasted [Some (1 # 2, 1 # 1); None; Some (3 # 8, 2 # 1)]%Q false) = txt "{ c2 d e4.*2 }" /\
  re_text (Pasted [None; Some (1 # 4, 1 # 1)]%Q true) = txt "{ c d4 e }" /\
  re_text (Transformed (Transform 1 0 1)) = txt "{ c8 d e16*1/2 }" /\
  re_text (Transformed (Transform 0 1 1)) = txt "{ c4. d e8.*1/2 }".
Proof.
  split; [repeat constructor|]. split.
  { eexists. split; [vm_compute; reflexivity|]. split; [cbn; lia|]. split; [intros t _; right; lia|]. split.
    { cbn -[cuts_no_token In].
      repeat match goal with
      | |- _ /\ _ => split
      | |- exists t, In t re_tokens /\ t_pos t = ?i =>
          first [exists (Tok i (i+1)); split; [cbn; tauto|reflexivity]|exists (Tok 9 13); split; [cbn; tauto|reflexivity]]
      | |- cuts_no_token _ _ => intros t I; cbn in I; repeat destruct I as [<-|I]; cbn; try lia; destruct I
      | |- _ <= _ => lia
      | |- _ < _ => lia
      | |- True => exact I
      end. }
    split.
    { cbn -[strongest In].
      repeat match goal with
      | |- _ /\ _ => split
      | |- _ = false => reflexivity
      | |- True => exact I
      | |- _ = _ -> strongest ?l [] => intros E; try discriminate E; exact (strongest_collapse l)
      | |- forall t, In t _ -> _ => intros t I; cbn in I; repeat destruct I as [<-|I]; cbn; try lia; destruct I
      end. }
    split; [|reflexivity].
    repeat (apply Forall_cons; [intros i j [= <- <-];
      first [exists (Tok 9 13); split; [cbn; tauto|reflexivity]
            |match goal with |- exists t, _ /\ t_end t = ?j => exists (Tok (j - 1) j); split; [cbn; tauto|reflexivity] end]|]).
    constructor. }
  split.
  { intros o I. cbn [In] in I. repeat destruct I as [<-|I]; try destruct I; (eexists; split; [vm_compute; reflexivity|]);
      repeat (constructor; cbn [fst]); (eexists; vm_compute; reflexivity). }
  vm_compute. auto 10.
Qed.
