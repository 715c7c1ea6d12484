(** Property C132: the text of a document after removing durations or scalings. *)
From Coq Require Import String Ascii List Arith PeanoNat ZArith QArith Bool Lia.
From Verif Require Import Base Element_Model Element_Spec Element_Proofs Element_Edits Element_Props Writeback_Model Writeback_Props Writeback_Local Writeback_Remove.
From Verif Require Import Rhythm_Model Rhythm_Proofs Rhythmdoc_Model.
Import ListNotations.
Open Scope nat_scope.

(** ** Specification *)

(** Some items are left out. *)
Inductive left_out {A} : list A -> list A -> Prop :=
| left_nil : left_out [] []
| left_keep x l l' : left_out l l' -> left_out (x :: l) (x :: l')
| left_drop x l l' : left_out l l' -> left_out (x :: l) l'.

(** The first Duration is removed, or some of its scalings. *)
Inductive shrunk : list ddur -> list ddur -> Prop :=
| shrunk_duration x r : shrunk (x :: r) r
| shrunk_scaling a h s s' r : left_out s s' -> shrunk ((a, h, s) :: r) ((a, h, s') :: r).

(** Only Durations and scalings of nodes in the range are removed.  Nodes are
    given by the way to them from the root. *)
Inductive dropped (inr : list nat -> bool) : list nat -> rdoc -> rdoc -> Prop :=
| dropped_node path k b a n durs durs' kids kids' :
    durs' = durs \/ (inr path = true /\ shrunk durs durs') ->
    dropped_all inr path 0 kids kids' -> dropped inr path (RD k b a n durs kids) (RD k b a n durs' kids')
with dropped_all (inr : list nat -> bool) : list nat -> nat -> list rdoc -> list rdoc -> Prop :=
| dropped_nil path i : dropped_all inr path i [] []
| dropped_cons path i d d' r r' : dropped inr (path ++ [i]) d d' -> dropped_all inr path (S i) r r' ->
    dropped_all inr path i (d :: r) (d' :: r').

(** All Durations and scalings have a text. *)
Inductive written : rdoc -> Prop :=
| written_node k b a n durs kids :
    Forall (fun d => a_kind (fst (fst d)) <> Plain /\ Forall (fun s => a_kind (fst s) <> Plain) (snd d)) durs ->
    Forall written kids -> written (RD k b a n durs kids).

(** ** Proofs *)

Fixpoint rdoc_ind2 (P : rdoc -> Prop) (H : forall k b a n durs kids, Forall P kids -> P (RD k b a n durs kids)) (d : rdoc) : P d :=
  match d with
  | RD k b a n durs kids => H k b a n durs kids
      ((fix go l : Forall P l := match l with [] => Forall_nil _ | c :: r => Forall_cons _ (rdoc_ind2 P H c) (go r) end) kids)
  end.

Fixpoint rredo_all (l : list rdoc) (ts : list rn) : list rdoc :=
  match l, ts with x :: l, t :: ts => rredo x t :: rredo_all l ts | _, _ => [] end.
Lemma rredo_eq k b a n durs kids t : rredo (RD k b a n durs kids) t = RD k b a n (take_away durs (durs_of t)) (rredo_all kids (kids_of t)).
Proof. reflexivity. Qed.

(** *** What a visit does *)
Section Visit.
Variable R : list dnode -> list dnode -> Prop.
Variable inr : list nat -> bool.

Inductive became : list nat -> rn -> rn -> Prop :=
| became_node path k b durs durs' kids kids' :
    durs' = durs \/ (inr path = true /\ R durs durs') -> became_all path 0 kids kids' -> became path (RN k b durs kids) (RN k b durs' kids')
with became_all : list nat -> nat -> list rn -> list rn -> Prop :=
| became_nil path i : became_all path i [] []
| became_cons path i d d' r r' : became (path ++ [i]) d d' -> became_all path (S i) r r' -> became_all path i (d :: r) (d' :: r').

Lemma visit_became {St} (f : process St) n :
  (forall right before n st st' durs', f right before n st = Ok (st', durs') -> durs' = durs_of n \/ R (durs_of n) durs') ->
  forall path right before st st' n', visit f inr path right before st n = Ok (st', n') -> became path n n'.
Proof.
  intros F. induction n as [k b durs kids IH] using rn_ind2. intros path right before st st' n' V. rewrite visit_eq in V.
  destruct (if inr path then f right before (RN k b durs kids) st else Ok (st, durs)) as [[st1 durs1]|] eqn:D; [|discriminate].
  cbn [bindr] in V. destruct (visits f inr path 0 before st1 kids) as [[st2 kids1]|] eqn:VK; [|discriminate]. cbn [bindr] in V. injection V as <- <-.
  constructor.
  - destruct (inr path) eqn:IN; [|injection D as <- <-; now left]. destruct (F _ _ _ _ _ _ D) as [->|H]; [now left|now right].
  - clear D. revert before st1 st2 kids1 VK. generalize 0. induction IH as [|c r IC _ IHr]; intros i before st1 st2 kids1 VK; cbn [visits] in VK.
    + injection VK as <- <-. constructor.
    + destruct (visit f inr (path ++ [i]) (hd_error r) before st1 c) as [[st3 c']|] eqn:VC; [|discriminate]. cbn [bindr] in VK.
      destruct (visits f inr path (S i) (bwd c' ++ before) st3 r) as [[st4 r']|] eqn:VR; [|discriminate]. cbn [bindr] in VK. injection VK as <- <-.
      constructor; [exact (IC _ _ _ _ _ _ VC)|exact (IHr _ _ _ _ _ VR)].
Qed.
End Visit.

(** The removals. *)
Inductive less : list dnode -> list dnode -> Prop :=
| less_duration x r : less (x :: r) r
| less_scaling h s r : less ((h, s) :: r) ((h, remove_all s) :: r).

Lemma edit_became' R {St} (f : process St) inr st st' t t' :
  (forall right before n st st' durs', f right before n st = Ok (st', durs') -> durs' = durs_of n \/ R (durs_of n) durs') ->
  Rhythm_Model.edit f inr st t = Ok (st', t') -> became R inr [] t t'.
Proof.
  intros F V. apply (visit_became R _ f t F) in V.
  assert (M : (forall p x y, became R (fun p => match p with [] => false | _ => inr p end) p x y -> became R inr p x y)); [|auto].
  clear. intros p x. revert p. induction x as [k b durs kids IH] using rn_ind2. intros p y H. inversion H as [? ? ? ? ? ? kids' D K]; subst.
  constructor.
  - destruct D as [->|[I L]]; [now left|right]. split; [|exact L]. destruct p; [discriminate|exact I].
  - clear - IH K. revert K. generalize 0. revert kids'. induction IH as [|c r IC _ IHr]; intros kids' i K; inversion K; subst; constructor; auto.
Qed.
Lemma edit_became {St} (f : process St) inr st st' t t' :
  (forall right before n st st' durs', f right before n st = Ok (st', durs') -> durs' = durs_of n \/ less (durs_of n) durs') ->
  Rhythm_Model.edit f inr st t = Ok (st', t') -> became less inr [] t t'.
Proof. apply edit_became'. Qed.

Lemma del_scaling_less durs durs' : del_scaling durs = Ok durs' -> durs' = durs \/ less durs durs'.
Proof.
  unfold del_scaling, set_scaling. destruct durs as [|[h [|s l]] r]; cbn [one_or_none]; intros [= <-]; [now left|now left|]. right. constructor.
Qed.
Lemma del_duration_less durs : del_duration durs = durs \/ less durs (del_duration durs).
Proof. destruct durs; [now left|right; constructor]. Qed.

Lemma remove_less {X} right before n (st st' : X) durs' (f : process X) :
  (forall durs', f right before n st = Ok (st', durs') -> durs' = durs_of n \/ less (durs_of n) durs') ->
  on_durables f right before n st = Ok (st', durs') -> durs' = durs_of n \/ less (durs_of n) durs'.
Proof. intros H. unfold on_durables. destruct (yielded n); [apply H|]. intros [= <- <-]. now left. Qed.

(** *** What it does to the elements *)
Lemma length_remove_all s : s <> [] -> length (remove_all s) < length s.
Proof.
  intros N. assert (H : forall n s, length s <= n -> 2 * length (remove_all s) <= length s).
  { induction n as [|n IH]; intros [|x [|y l]] L; cbn [length remove_all] in *; try lia. specialize (IH l). lia. }
  specialize (H (length s) s (le_n _)). destruct s as [|x l]; [contradiction|]. cbn [length] in *. lia.
Qed.
Lemma remove_each_map {A} (f : A -> Q) s : map f (remove_each s) = remove_all (map f s).
Proof.
  assert (H : forall n s, length s <= n -> map f (remove_each s) = remove_all (map f s)); [|now apply (H (length s))].
  clear. induction n as [|n IH]; intros [|x [|y l]] L; cbn [length] in L; cbn [remove_each map remove_all]; try reflexivity; try lia.
  rewrite IH by lia. reflexivity.
Qed.
Lemma remove_each_out {A} (s : list A) : left_out s (remove_each s).
Proof.
  assert (H : forall n s, length s <= n -> left_out (A:=A) s (remove_each s)); [|now apply (H (length s))].
  clear. induction n as [|n IH]; intros [|x [|y l]] L; cbn [length] in L; cbn [remove_each]; try lia; try (repeat constructor; fail).
  apply left_drop, left_keep, IH. lia.
Qed.

Lemma take_same durs : take_away durs (map dvalue durs) = durs.
Proof.
  unfold take_away. rewrite map_length, Nat.ltb_irrefl. destruct durs as [|[[a h] s] r]; [reflexivity|]. cbn [map dvalue fst snd].
  rewrite map_length, Nat.ltb_irrefl. reflexivity.
Qed.

Lemma take_less durs ds : less (map dvalue durs) ds -> map dvalue (take_away durs ds) = ds /\ (take_away durs ds = durs \/ shrunk durs (take_away durs ds)).
Proof.
  intros L. destruct durs as [|[[a h] s] r]; [inversion L|]. cbn [map dvalue fst snd] in L. inversion L; subst; unfold take_away; cbn [length map].
  - rewrite map_length. destruct (Nat.ltb_spec (length r) (S (length r))); [|lia]. cbn [tl]. split; [reflexivity|]. right. constructor.
  - rewrite map_length, Nat.ltb_irrefl. destruct s as [|x s].
    + cbn [map remove_all length Nat.ltb Nat.leb]. split; [reflexivity|now left].
    + assert (N : map snd (x :: s) <> []) by discriminate. pose proof (length_remove_all _ N) as LT. rewrite map_length in LT.
      destruct (Nat.ltb_spec (length (remove_all (map snd (x :: s)))) (length (x :: s))); [|lia].
      split; [|right; constructor; apply remove_each_out]. rewrite <- remove_each_map. reflexivity.
Qed.

Lemma rredo_dropped inr d : forall path t, became less inr path (rhythm d) t -> rhythm (rredo d t) = t /\ dropped inr path d (rredo d t).
Proof.
  induction d as [k b a n durs kids IH] using rdoc_ind2. intros path t B. cbn [rhythm] in B. inversion B as [? ? ? ? durs' ? kids' D K]; subst.
  rewrite rredo_eq. cbn [durs_of kids_of rhythm].
  assert (X : map rhythm (rredo_all kids kids') = kids' /\ dropped_all inr path 0 kids (rredo_all kids kids')).
  { clear - IH K. revert K. generalize 0. revert kids'. induction IH as [|c r IC _ IHr]; intros kids' i K; cbn [map] in K; inversion K; subst; cbn [rredo_all map].
    - split; [reflexivity|constructor].
    - destruct (IC _ _ H3) as [E1 E2]. destruct (IHr _ _ H5) as [E3 E4]. split; [now rewrite E1, E3|now constructor]. }
  destruct X as [X1 X2]. rewrite X1.
  destruct D as [->|[I L]].
  - rewrite take_same. split; [reflexivity|]. constructor; [now left|exact X2].
  - destruct (take_less _ _ L) as [T1 T2]. rewrite T1. split; [reflexivity|]. constructor; [|exact X2]. destruct T2 as [T2|T2]; [now left|right; now split].
Qed.

Lemma pruned_app l l' : pruned_all l l' -> forall r r', pruned_all r r' -> pruned_all (l ++ r) (l' ++ r').
Proof. induction 1; intros r1 r1' H2; cbn [app]; [exact H2| |]; constructor; auto. Qed.

Lemma pruned_id e : pruned e e.
Proof. induction e as [a kids IH] using elem_rect'. constructor. induction IH; constructor; assumption. Qed.
Lemma pruned_ids l : pruned_all l l.
Proof. induction l; constructor; [apply pruned_id|assumption]. Qed.

Lemma dropped_pruned inr d : written d -> forall path d', dropped inr path d d' -> pruned (relements d) (relements d').
Proof.
  induction d as [k b a n durs kids IH] using rdoc_ind2. intros W path d' D. inversion W as [? ? ? ? ? ? WD WK]; subst. inversion D as [? ? ? ? ? ? durs' ? kids' DD DK]; subst.
  cbn [relements]. apply pruned_node.
  assert (K : forall m, pruned_all (firstn m (map relements kids)) (firstn m (map relements kids')) /\
    pruned_all (skipn m (map relements kids)) (skipn m (map relements kids'))).
  { clear - IH WK DK. revert DK. generalize 0. revert kids'. induction IH as [|c r IC _ IHr]; intros kids' i K m; inversion K as [|? ? ? ? ? ? KD KR]; subst; inversion WK as [|? ? WC WR]; subst.
    - destruct m; split; constructor.
    - destruct m as [|m]; cbn [firstn skipn map].
      + split; [constructor|]. apply pruned_keep; [eapply IC; eassumption|]. destruct (IHr WR _ _ KR 0) as [_ X]. exact X.
      + destruct (IHr WR _ _ KR m) as [X1 X2]. split; [apply pruned_keep; [eapply IC; eassumption|exact X1]|exact X2]. }
  destruct (K n) as [K1 K2]. apply pruned_app; [exact K1|]. apply pruned_app; [|exact K2].
  destruct DD as [->|[_ S]]; [apply pruned_ids|]. inversion S as [x r|ad h s s' r O]; subst; cbn [map].
  - apply pruned_drop; [|apply pruned_ids]. apply writes_head. apply (Forall_inv WD).
  - apply pruned_keep; [|apply pruned_ids]. unfold duration_element. cbn [fst snd]. apply pruned_node.
    pose proof (proj2 (Forall_inv WD)) as WS. cbn [snd] in WS. clear - O WS. induction O; inversion WS; subst; cbn [map]; constructor; auto.
    + apply pruned_id.
    + now apply writes_head.
Qed.

(** ** Theorems *)

(** The functions of rhythm.py that only remove: remove(), remove_scaling(),
    remove_fraction_scaling() and implicit() for the whole range. *)
Inductive removal := Remove | RemoveScaling | RemoveFractionScaling | Implicit.
Definition removal_of (o : removal) : (list nat -> bool) -> rn -> res rn :=
  match o with
  | Remove => Rhythm_Model.remove
  | RemoveScaling => remove_scaling
  | RemoveFractionScaling => remove_fraction_scaling
  | Implicit => fun inr => implicit inr false
  end.

Lemma removal_became o inr t t' : removal_of o inr t = Ok t' -> became less inr [] t t'.
Proof.
  assert (X : forall St (f : process St) st, (forall right before n st st' durs', f right before n st = Ok (st', durs') -> durs' = durs_of n \/ less (durs_of n) durs') ->
    (let! (_, t) := Rhythm_Model.edit f inr st t in Ok t) = Ok t' -> became less inr [] t t').
  { intros St f st F H. destruct (Rhythm_Model.edit f inr st t) as [[st' t1]|] eqn:E; [|discriminate]. cbn [bindr] in H. injection H as <-.
    exact (edit_became f inr st st' t t1 F E). }
  destruct o; cbn [removal_of]; unfold Rhythm_Model.remove, remove_scaling, remove_fraction_scaling, implicit; apply X; clear;
    intros right before n st st' durs'; apply remove_less; clear durs'; intros durs'; cbn beta.
  - intros [= <- <-]. destruct (may_remove right n); [apply del_duration_less|now left].
  - destruct (del_scaling (durs_of n)) as [d|] eqn:E; [|discriminate]. intros [= <- <-]. now apply del_scaling_less.
  - destruct (scaling (durs_of n)) as [s|]; [|intros [= <- <-]; now left].
    destruct (negb _); [|intros [= <- <-]; now left].
    destruct (del_scaling (durs_of n)) as [d|] eqn:E; [|discriminate]. intros [= <- <-]. now apply del_scaling_less.
  - destruct (duration_scaling (durs_of n)) as [dur|]; [|intros [= <- <-]; now left].
    destruct (is_prev dur st && may_remove right n); [intros [= <- <-]; apply del_duration_less|].
    destruct (sets_previous (kind_of n)); intros [= <- <-]; now left.
Qed.

(** The elements after one of these functions and edit(): only Durations and
    scalings of nodes in the range are gone, and the nodes have the rhythm that
    was computed; in the text the texts of these nodes are deleted, with only
    whitespace next to them, and all other text stays. *)
Theorem C132_text : forall o inr d t concat_space ps doc context start end_,
  let ctx := match context with Some c => c | None => d_root doc end in
  let pos := match start with Some s => s | None => x_pos ctx end in
  let stop := match end_ with Some s => s | None => x_end ctx end in
  removal_of o inr (rhythm d) = Ok t -> written d ->
  d_pending doc = [] -> by_type concat_space -> points concat_space (relements d) = Ok ps ->
  tokens_from 0 (x_tokens ctx) -> cuts_no_token (x_tokens ctx) pos -> placed (x_tokens ctx) pos ps ->
  untouched (x_tokens ctx) pos [] ps -> whole_tokens (x_tokens ctx) ps -> stop <= last_end pos ps -> last_end pos ps <= List.length (d_text doc) ->
  rhythm (rredo d t) = t /\ dropped inr [] d (rredo d t) /\
  exists ps' cs, points concat_space (relements (rredo d t)) = Ok ps' /\ cuts stop pos [] None ps ps' cs /\ in_order 0 cs /\
    Writeback_Model.edit concat_space (relements (rredo d t)) doc context start end_ = (Doc (apply_changes (d_text doc) 0 cs) (d_root doc) [], Ok (List.length cs)).
Proof.
  intros o inr d t cs0 ps doc ctx start end_ x pos stop H W PE BT P T C PL U WT L LT.
  destruct (rredo_dropped inr d [] t (removal_became o inr _ _ H)) as [E D]. split; [exact E|]. split; [exact D|].
  exact (C131_removed cs0 _ _ ps doc ctx start end_ PE BT P T C PL U WT L LT (dropped_pruned inr d W [] _ D)).
Qed.
Print Assumptions C132_text.

(** [{ c4 d4 e8*1/2 }]: by implicit() the second 4 is removed, by remove_scaling() the scaling. *)
Local Open Scope string_scope. Local Open Scope list_scope. Open Scope nat_scope.
Definition rd_tokens : list token := [Tok 0 1; Tok 2 3; Tok 3 4; Tok 5 6; Tok 6 7; Tok 8 9; Tok 9 10; Tok 10 14; Tok 15 16].
Definition rd_attrs (id : nat) (t : string) (o : token) : attrs :=
  Attrs Head id (Ok (txt t)) [] (Some [o]) None false false [] [] [] [] [].
Definition rd_note (name : string) (o : token) (durs : list ddur) : rdoc := RD KDurable (Some 0) (rd_attrs 1 name o) 0 durs [].
Definition rd_doc : rdoc :=
  RD (KOther true true) None
    (Attrs Block 0 (Ok (txt "{")) (txt "}") (Some [Tok 0 1]) (Some [Tok 15 16]) false false [] (txt " ") (txt " ") (txt " ") []) 0 []
  [rd_note "c" (Tok 2 3) [(rd_attrs 3 "4" (Tok 3 4), 1 # 4, [])];
   rd_note "d" (Tok 5 6) [(rd_attrs 3 "4" (Tok 6 7), 1 # 4, [])];
   rd_note "e" (Tok 8 9) [(rd_attrs 3 "8" (Tok 9 10), 1 # 8, [(rd_attrs 4 "*1/2" (Tok 10 14), 1 # 2)])]]%Q.
Definition rd_text (o : removal) : str :=
  match removal_of o (fun _ => true) (rhythm rd_doc) with
  | Ok t => d_text (fst (Writeback_Model.edit concat_default (relements (rredo rd_doc t)) (Doc (txt "{ c4 d4 e8*1/2 }") (Context 0 16 rd_tokens) []) None None None))
  | Err _ => []
  end.

Example C132_witness :
  written rd_doc /\ by_type concat_default /\
  (exists ps, points concat_default (relements rd_doc) = Ok ps /\ tokens_from 0 rd_tokens /\ cuts_no_token rd_tokens 0 /\
    placed rd_tokens 0 ps /\ untouched rd_tokens 0 [] ps /\ whole_tokens rd_tokens ps /\ last_end 0 ps = 16) /\
  (forall o, exists t, removal_of o (fun _ => true) (rhythm rd_doc) = Ok t) /\
  rd_text Implicit = txt "{ c4 d e8*1/2 }" /\ rd_text RemoveScaling = txt "{ c4 d4 e8 }" /\ rd_text Remove = txt "{ c d e }".
Proof.
  split; [repeat constructor; discriminate|]. split; [intros a a' n n' m m' _ H _ _; exact H|]. split.
  { eexists. split; [vm_compute; reflexivity|]. split; [cbn; lia|]. split; [intros t _; right; lia|]. split.
    { cbn -[cuts_no_token In].
      repeat match goal with
      | |- _ /\ _ => split
      | |- exists t, In t rd_tokens /\ t_pos t = ?i =>
          first [exists (Tok i (i+1)); split; [cbn; tauto|reflexivity]|exists (Tok 10 14); split; [cbn; tauto|reflexivity]]
      | |- cuts_no_token _ _ => intros t I; cbn in I; repeat destruct I as [<-|I]; cbn; try lia; destruct I
      | |- _ <= _ => lia
      | |- _ < _ => lia
      | |- True => exact I
      end. }
    split.
    { cbn -[strongest In].
      repeat match goal with
      | |- _ /\ _ => split
      | |- _ = false => reflexivity
      | |- True => exact I
      | |- _ = _ -> strongest ?l [] => intros E; try discriminate E; exact (strongest_collapse l)
      | |- forall t, In t _ -> _ => intros t I; cbn in I; repeat destruct I as [<-|I]; cbn; try lia; destruct I
      end. }
    split; [|reflexivity].
    repeat (apply Forall_cons; [intros i j [= <- <-];
      first [exists (Tok 10 14); split; [cbn; tauto|reflexivity]
            |match goal with |- exists t, _ /\ t_end t = ?j => exists (Tok (j - 1) j); split; [cbn; tauto|reflexivity] end]|]).
    constructor. }
  split; [intros []; eexists; vm_compute; reflexivity|]. vm_compute. auto.
Qed.
