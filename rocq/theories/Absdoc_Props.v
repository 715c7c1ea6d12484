(** Property C136: the text of a document after its music is made absolute. *)
From Coq Require Import String Ascii List Arith PeanoNat ZArith QArith Bool Lia.
From Verif Require Import Pitch_Model Transpose_Model Transpose_Props.
From Verif Require Import Base Element_Model Element_Spec Element_Proofs Element_Edits Element_Props Writeback_Model Writeback_Props Writeback_Local Writeback_Remove Writeback_Mixed.
From Verif Require Import Transposedoc_Model Doctext_Model Pitch_Model Pitch_Spec Relative_Model Relative_Proofs Reldoc_Model Reldoc_Props Absdoc_Model.
Import ListNotations.
Open Scope nat_scope.

(** ** Specification *)

(** The octave mark of a pitch before and after. *)
Inductive octave_set : option (attrs * Z) -> option (attrs * Z) -> Prop :=
| oset_kept o : octave_set o o
| oset_changed a a' y z : retexted a a' (octave_to_string z) -> octave_set (Some (a, y)) (Some (a', z))
| oset_added a z : a_head_origin a = None -> a_tail_origin a = None -> a_head a = Ok (octave_to_string z) -> octave_set None (Some (a, z)).

(** A pitch of which at most the name and the octave were changed. *)
Inductive pitch_set : jpitch -> jpitch -> Prop :=
| pset_octave a n o o' c k kids : octave_set o o' -> pitch_set (DP a n o c k, kids) (DP a n o' c k, kids)
| pset_name a a' n n' o o' c k kids : retexted a a' n' -> octave_set o o' -> pitch_set (DP a n o c k, kids) (DP a' n' o' c k, kids).

(** \octaveCheck, also if it is the whole music of a \relative. *)
Inductive checks_only : idoc -> Prop :=
| checks_check a q : checks_only (JCheck a q)
| checks_relative a s b : checks_only b -> checks_only (JRelative a s b).

(** In music, \relative was replaced by its music, names and octaves of
    pitches changed and octave checks removed, and nothing else. *)
Inductive absoluted : idoc -> idoc -> Prop :=
| abs_same d : absoluted d d
| abs_note q q' : pitch_set q q' -> absoluted (JNote q) (JNote q')
| abs_chord a b c c' kids : Forall2 pitch_set c c' -> absoluted (JChord a b c kids) (JChord a b c' kids)
| abs_relative a s b b' : absoluted b b' -> absoluted (JRelative a s b) b'
| abs_lists a l l' : absoluted_all l l' -> absoluted (JList a l) (JList a l')
with absoluted_all : list idoc -> list idoc -> Prop :=
| abs_nil : absoluted_all [] []
| abs_cons d d' r r' : absoluted d d' -> absoluted_all r r' -> absoluted_all (d :: r) (d' :: r')
| abs_check d r r' : checks_only d -> absoluted_all r r' -> absoluted_all (d :: r) r'.
Scheme absoluted_ind2 := Induction for absoluted Sort Prop
with absoluted_all_ind2 := Induction for absoluted_all Sort Prop.
Combined Scheme absoluted_mutind from absoluted_ind2, absoluted_all_ind2.

(** The top of the document. *)
Inductive entry_absoluted : jentry -> jentry -> Prop :=
| entry_same d : entry_absoluted d d
| entry_relative sel a s b b' : absoluted b b' -> entry_absoluted (JRel sel a s b) (JMusic b').

(** ** Proofs *)

Lemma idoc_ind2 (Q : idoc -> Prop) :
  (forall q, Q (JNote q)) -> (forall a b c kids, Q (JChord a b c kids)) -> (forall a q, Q (JCheck a q)) -> (forall e, Q (JOpaque e)) ->
  (forall a s b, Q b -> Q (JRelative a s b)) -> (forall a l, Forall Q l -> Q (JList a l)) -> forall d, Q d.
Proof.
  intros H1 H2 H3 H4 H5 H6. fix go 1. intros [q|a b c kids|a q|e|a s b|a l]; [apply H1|apply H2|apply H3|apply H4|apply H5; apply go|].
  apply H6. induction l as [|d r IH]; constructor; [apply go|exact IH].
Qed.

Lemma retexted_trans a a' a'' t t' : retexted a a' t -> retexted a' a'' t' -> retexted a a'' t'.
Proof. intros (A1 & A2 & A3 & A4 & A5 & A6 & A7) (B1 & B2 & B3 & B4 & B5 & B6 & B7). repeat split; congruence. Qed.
Lemma octave_set_trans o o' o'' : octave_set o o' -> octave_set o' o'' -> octave_set o o''.
Proof.
  destruct 1 as [o|a a' y z R|a z O1 O2 O3]; intros H; [exact H| |]; inversion H as [|? ? ? ? R'|]; subst.
  - now apply oset_changed.
  - apply oset_changed. exact (retexted_trans _ _ _ _ _ R R').
  - now apply oset_added.
  - destruct R' as (B1 & B2 & B3 & B4 & B5). apply oset_added; congruence.
Qed.
Lemma pitch_set_refl q : pitch_set q q.
Proof. destruct q as [[a n o c k] kids]. apply pset_octave, oset_kept. Qed.
Lemma pitch_set_trans q q' q'' : pitch_set q q' -> pitch_set q' q'' -> pitch_set q q''.
Proof.
  destruct 1 as [a n o o' c k kids O|a a' n n' o o' c k kids R O]; intros H;
    inversion H as [? ? ? o2 ? ? ? O2|? a2 ? n2 ? o2 ? ? ? R2 O2]; subst; pose proof (octave_set_trans _ _ _ O O2).
  - now apply pset_octave.
  - now apply pset_name.
  - now apply pset_name.
  - apply pset_name; [exact (retexted_trans _ _ _ _ _ R R2)|assumption].
Qed.

Lemma absoluted_check d a q : absoluted d (JCheck a q) -> checks_only d.
Proof.
  induction d as [p|b1 b2 c kids|b p|e|b s d IH|b l IH] using idoc_ind2; intros H; inversion H; subst; try constructor. auto.
Qed.
Lemma absoluted_checks d d' : absoluted d d' -> checks_only d' -> checks_only d.
Proof.
  intros H C. revert d H. induction C as [a q|a s b C IH]; intros d H; [exact (absoluted_check _ _ _ H)|].
  induction d as [p|b1 b2 c kids|b' p|e|b' s' d' IHd|b' l IHd] using idoc_ind2; inversion H; subst; try (now constructor).
  constructor. auto.
Qed.
Lemma absoluted_trans :
  (forall d d', absoluted d d' -> forall d'', absoluted d' d'' -> absoluted d d'') /\
  (forall l l', absoluted_all l l' -> forall l'', absoluted_all l' l'' -> absoluted_all l l'').
Proof.
  apply absoluted_mutind.
  - auto.
  - intros q q' P d'' H. inversion H; subst; apply abs_note; [exact P|]. eapply pitch_set_trans; eassumption.
  - intros a b c c' kids F d'' H. inversion H as [|?|? ? ? c2 ? F2| |]; subst; apply abs_chord; [exact F|].
    clear H. revert c2 F2. induction F as [|q q' r r' Q _ IH]; intros c2 F2; inversion F2 as [|? q2 ? r2 Q2 R2]; subst; constructor; [exact (pitch_set_trans _ _ _ Q Q2)|auto].
  - intros a s b b' _ IH d'' H. apply abs_relative. auto.
  - intros a l l' A IH d'' H. inversion H; subst; apply abs_lists; [exact A|auto].
  - auto.
  - intros d d' r r' A IHd _ IHr l'' H. inversion H as [|? d2 ? r2 D2 R2|? ? r2 C2 R2]; subst.
    + apply abs_cons; auto.
    + apply abs_check; [exact (absoluted_checks _ _ A C2)|auto].
  - intros d r r' C _ IHr l'' H. apply abs_check; auto.
Qed.

(** The elements. *)
Lemma octave_set_reworked o o' : octave_set o o' -> Forall as_read (mark o) -> reworked_all (mark o) (mark o').
Proof.
  destruct 1 as [o|a a' y z R|a z F1 F2 F3]; intros F; cbn [mark] in *.
  - now apply as_read_all.
  - apply reworked_keep; [|constructor]. apply reworked_node; [exact (retexted_origin _ _ _ R)|constructor].
  - apply reworked_add; [|constructor]. now apply (brand_new_node _ _ (octave_to_string z)).
Qed.
Lemma pitch_set_reworked q q' : pitch_set q q' -> as_read (jpitch_element q) -> reworked (jpitch_element q) (jpitch_element q').
Proof.
  intros S AR. unfold jpitch_element, pitch_element in *. inversion AR as [? ? M F]; subst.
  apply Forall_app in F. destruct F as [F1 F]. apply Forall_app in F. destruct F as [F2 F]. apply Forall_app in F. destruct F as [F3 F4].
  destruct S as [a n o o' c k kids SO|a a' n n' o o' c k kids R SO]; cbn [q_attrs q_oct q_acc q_chk fst snd] in *;
    (apply reworked_node; [first [now apply same_origin_refl|exact (retexted_origin _ _ _ R)]|]);
    (apply reworked_app; [now apply octave_set_reworked|]); (apply reworked_app; [now apply as_read_all|]);
    (apply reworked_app; [now apply as_read_all|now apply as_read_all]).
Qed.
Lemma absoluted_reworked :
  (forall d d', absoluted d d' -> as_read (jelements d) -> reworked_all [jelements d] [jelements d']) /\
  (forall l l', absoluted_all l l' -> Forall as_read (map jelements l) -> reworked_all (map jelements l) (map jelements l')).
Proof.
  apply absoluted_mutind.
  - intros d AR. apply as_read_all. now constructor.
  - intros q q' P AR. cbn [jelements] in *. apply reworked_keep; [now apply pitch_set_reworked|constructor].
  - intros a b c c' kids F AR. cbn [jelements] in *. inversion AR as [? ? M1 F1]; subst. pose proof (Forall_inv F1) as A1. inversion A1 as [? ? M2 F2]; subst.
    apply reworked_keep; [|constructor]. apply reworked_node; [now apply same_origin_refl|]. apply reworked_keep; [|apply as_read_all; exact (Forall_inv_tail F1)].
    apply reworked_node; [now apply same_origin_refl|]. clear - F F2. induction F as [|q q' r r' Q _ IH]; cbn [map] in *; [constructor|].
    apply reworked_keep; [exact (pitch_set_reworked _ _ Q (Forall_inv F2))|exact (IH (Forall_inv_tail F2))].
  - intros a s b b' _ IH AR. cbn [jelements] in *. inversion AR as [? ? M F]; subst. apply Forall_app in F. destruct F as [F1 F2].
    apply (reworked_unwrap a _ [jelements b'] [] []); [|constructor].
    destruct s as [q|]; cbn [app]; [apply reworked_drop|]; apply IH; exact (Forall_inv F2).
  - intros a l l' _ IH AR. cbn [jelements] in *. inversion AR as [? ? M F]; subst. apply reworked_keep; [|constructor].
    apply reworked_node; [now apply same_origin_refl|auto].
  - constructor.
  - intros d d' r r' _ IHd _ IHr F. cbn [map] in *. exact (reworked_app _ _ (IHd (Forall_inv F)) _ _ (IHr (Forall_inv_tail F))).
  - intros d r r' _ _ IHr F. cbn [map] in *. apply reworked_drop. exact (IHr (Forall_inv_tail F)).
Qed.

(** The conversion of elements is that of the items. *)
Definition agrees {A B} (f : A -> B) (Q : A -> Prop) (x : res A) (y : res B) : Prop :=
  match x with Ok a => y = Ok (f a) /\ Q a | Err e => y = Err e end.

Section Run.
Variables (octave_id : nat) (T : tables) (P : processor) (fa : bool).
Notation jnote := (jnote octave_id T P).
Notation jchord := (jchord octave_id T P).
Notation jplain := (jplain octave_id T P).
Notation jwalk := (jwalk octave_id T P fa).
Notation jsettle := (jsettle octave_id T P fa).
Definition pn (q : jpitch) : pnode := pnode_of (fst q).

Lemma same_octave_set o o' : same_octave o o' -> octave_set o o'.
Proof. destruct 1 as [o|a a' y z R|a z (F1 & F2 & F3 & _)]; [apply oset_kept|now apply oset_changed|now apply oset_added]. Qed.
Lemma same_pitch_set q q' kids : same_pitch q q' -> pitch_set (q, kids) (q', kids).
Proof. destruct 1 as [a n o o' c k SO|a a' n n' o o' c k R SO]; [apply pset_octave|apply pset_name]; auto using same_octave_set. Qed.

Lemma jnote_agrees q last : agrees (fun x : jpitch * pitch => (pn (fst x), snd x)) (fun x => pitch_set q (fst x)) (jnote q last) (absolute_note T P (pn q) last).
Proof.
  unfold Absdoc_Model.jnote. fold (pn q). destruct (absolute_note T P (pn q) last) as [[m p]|e] eqn:A; cbn [bindr agrees]; [|reflexivity].
  unfold absolute_note in A. destruct (process T P (pn q) true _) as [m' r] eqn:PR. destruct r as [r|]; [|discriminate]. cbn [bindr] in A. injection A as -> ->.
  destruct (redo_pitch_spec octave_id (fst q) m (process_rewritten _ _ _ _ _ _ PR)) as [E S]. unfold pn at 1. cbn [fst snd]. rewrite E. split; [reflexivity|].
  destruct q as [q kids]. cbn [fst snd] in *. now apply same_pitch_set.
Qed.
Lemma jchord_agrees c : forall last, agrees (fun x : list jpitch * list pitch => (map pn (fst x), snd x)) (fun x => Forall2 pitch_set c (fst x)) (jchord c last) (absolute_chord T P (map pn c) last).
Proof.
  induction c as [|q r IH]; intros last; cbn [Absdoc_Model.jchord map absolute_chord].
  - split; [reflexivity|constructor].
  - pose proof (jnote_agrees q last) as N. destruct (jnote q last) as [[m p]|]; cbn [agrees fst snd bindr] in *; [destruct N as [-> N]|now rewrite N]. cbn [bindr].
    pose proof (IH p) as C. destruct (jchord r p) as [[r' ps]|]; cbn [agrees fst snd bindr] in *; [destruct C as [-> C]|now rewrite C]. cbn [bindr map].
    split; [reflexivity|now constructor].
Qed.

Fixpoint jplains (l : list idoc) (last : pitch) : res (list idoc * pitch) :=
  match l with
  | [] => Ok ([], last)
  | JCheck _ q :: r =>
      let! p := read_node T P (pnode_of (fst q)) in
      match r with
      | [] => Ok ([], p)
      | x :: r => let! (r', q) := jplains r p in Ok (x :: r', q)
      end
  | x :: r => let! (x', p) := jplain x last in
              let! (r', q) := jplains r p in Ok (x' :: r', q)
  end.
Fixpoint plains (l : list item) (last : pitch) : res (list item * pitch) :=
  match l with
  | [] => Ok ([], last)
  | ICheck n :: r =>
      let! p := read_node T P n in
      match r with
      | [] => Ok ([], p)
      | x :: r => let! (r', q) := plains r p in Ok (x :: r', q)
      end
  | x :: r => let! (x', p) := plain T P x last in
              let! (r', q) := plains r p in Ok (x' :: r', q)
  end.
Lemma jplain_list a l last : jplain (JList a l) last = let! (l', q) := jplains l last in Ok (JList a l', q).
Proof. reflexivity. Qed.
Lemma plain_list' l last : plain T P (IList l) last = let! (l', q) := plains l last in Ok (IList l', q).
Proof. reflexivity. Qed.

Definition plain_ok (d : idoc) : Prop := forall last,
  agrees (fun x : idoc * pitch => (items (fst x), snd x)) (fun x => absoluted d (fst x)) (jplain d last) (plain T P (items d) last).

Lemma not_check_plains x r last : (forall a q, x <> JCheck a q) ->
  jplains (x :: r) last = (let! (x', p) := jplain x last in let! (r', q) := jplains r p in Ok (x' :: r', q)) /\
  plains (items x :: map items r) last = (let! (x', p) := plain T P (items x) last in let! (r', q) := plains (map items r) p in Ok (x' :: r', q)).
Proof. intros H. destruct x; try (split; reflexivity). now destruct (H a q). Qed.

Lemma plains_ok n : forall l, List.length l <= n -> Forall plain_ok l -> forall last,
  agrees (fun x : list idoc * pitch => (map items (fst x), snd x)) (fun x => absoluted_all l (fst x)) (jplains l last) (plains (map items l) last).
Proof.
  induction n as [|n IH]; intros l L F last; (destruct l as [|x r]; [split; [reflexivity|constructor]|]); cbn [List.length] in L; [lia|].
  assert (X : (exists a q, x = JCheck a q) \/ (forall a q, x <> JCheck a q)) by (destruct x; try (right; discriminate); left; eauto).
  destruct X as [(a & q & ->)|X].
  - cbn [jplains plains map items]. destruct (read_node T P (pnode_of (fst q))) as [p|]; cbn [bindr agrees]; [|reflexivity].
    destruct r as [|y r]; cbn [map]; [split; [reflexivity|]; apply abs_check; constructor|]. cbn [List.length] in L.
    pose proof (IH r ltac:(lia) (Forall_inv_tail (Forall_inv_tail F)) p) as R.
    destruct (jplains r p) as [[r' p']|]; cbn [agrees fst snd bindr] in *; [destruct R as [-> R]|now rewrite R]. cbn [bindr map].
    split; [reflexivity|]. apply abs_check; [constructor|]. apply abs_cons; [apply abs_same|exact R].
  - cbn [map]. destruct (not_check_plains x r last X) as [-> ->].
    pose proof (Forall_inv F last) as D. destruct (jplain x last) as [[x' p]|]; cbn [agrees fst snd bindr] in *; [destruct D as [-> D]|now rewrite D]. cbn [bindr].
    pose proof (IH r ltac:(lia) (Forall_inv_tail F) p) as R.
    destruct (jplains r p) as [[r' p']|]; cbn [agrees fst snd bindr] in *; [destruct R as [-> R]|now rewrite R]. cbn [bindr map].
    split; [reflexivity|now constructor].
Qed.

Lemma plain_all d : plain_ok d.
Proof.
  induction d as [q|a b c kids|a q|e|a s b _|a l IH] using idoc_ind2; intros last.
  - cbn [Absdoc_Model.jplain items plain]. fold (pn q). pose proof (jnote_agrees q last) as N.
    destruct (jnote q last) as [[m p]|]; cbn [agrees fst snd bindr] in *; [destruct N as [-> N]|now rewrite N]. split; [reflexivity|now constructor].
  - cbn [Absdoc_Model.jplain items plain]. pose proof (jchord_agrees c last) as N. change (map (fun q : dpitch * list elem => pnode_of (fst q)) c) with (map pn c).
    destruct (jchord c last) as [[m p]|]; cbn [agrees fst snd bindr] in *; [destruct N as [-> N]|now rewrite N]. split; [reflexivity|now constructor].
  - cbn [Absdoc_Model.jplain items plain]. destruct (read_node T P (pnode_of (fst q))); cbn; [split; [reflexivity|constructor]|reflexivity].
  - split; [reflexivity|constructor].
  - split; [reflexivity|constructor].
  - rewrite jplain_list. cbn [items]. rewrite plain_list'. pose proof (plains_ok _ l (le_n _) IH last) as R.
    destruct (jplains l last) as [[r' p']|]; cbn [agrees fst snd bindr] in *; [destruct R as [-> R]|now rewrite R]. split; [reflexivity|now constructor].
Qed.

Fixpoint jwalks (l : list idoc) (last : pitch) (seen : bool) : res (list idoc * pitch * bool) :=
  match l with
  | [] => Ok ([], last, seen)
  | JCheck _ q :: r =>
      let! p := read_node T P (pnode_of (fst q)) in
      match r with
      | [] => Ok ([], p, true)
      | x :: r => let! x' := jsettle x in
                  let! (r', q, sn) := jwalks r p true in Ok (x' :: r', q, sn)
      end
  | x :: r => let! (x', p, sn) := jwalk x last seen in
              let! (r', q, sn) := jwalks r p sn in Ok (x' :: r', q, sn)
  end.
Fixpoint jsettles (l : list idoc) : res (list idoc) :=
  match l with [] => Ok [] | x :: r => let! x' := jsettle x in let! r' := jsettles r in Ok (x' :: r') end.
Fixpoint settles (l : list item) : res (list item) :=
  match l with [] => Ok [] | x :: r => let! x' := settle T P fa x in let! r' := settles r in Ok (x' :: r') end.
Notation walks := (Relative_Proofs.walks T P fa).
Lemma jwalk_list a l last seen : jwalk (JList a l) last seen = let! (l', q, sn) := jwalks l last seen in Ok (JList a l', q, sn).
Proof. reflexivity. Qed.
Lemma jsettle_list a l : jsettle (JList a l) = let! l' := jsettles l in Ok (JList a l').
Proof. reflexivity. Qed.
Lemma settle_list' l : settle T P fa (IList l) = let! l' := settles l in Ok (IList l').
Proof. reflexivity. Qed.

Lemma jsettle_rel a s b : jsettle (JRelative a s b) =
  let! p := start_pitch T P fa (option_map (fun q => pnode_of (fst q)) s) in let! (b', _, _) := jwalk b p false in Ok b'.
Proof. reflexivity. Qed.
Lemma settle_rel s b : settle T P fa (IRelative s b) = let! p := start_pitch T P fa s in let! (b', _, _) := walk T P fa b p false in Ok b'.
Proof. reflexivity. Qed.

Definition walk_ok (d : idoc) : Prop :=
  (forall last seen, agrees (fun x : idoc * pitch * bool => (items (fst (fst x)), snd (fst x), snd x)) (fun x => absoluted d (fst (fst x))) (jwalk d last seen) (walk T P fa (items d) last seen)) /\
  agrees items (absoluted d) (jsettle d) (settle T P fa (items d)).

Lemma not_check_walks x r last seen : (forall a q, x <> JCheck a q) ->
  jwalks (x :: r) last seen = (let! (x', p, sn) := jwalk x last seen in let! (r', q, sn) := jwalks r p sn in Ok (x' :: r', q, sn)) /\
  walks (items x :: map items r) last seen = (let! (x', p, sn) := walk T P fa (items x) last seen in let! (r', q, sn) := walks (map items r) p sn in Ok (x' :: r', q, sn)).
Proof. intros H. destruct x; try (split; reflexivity). now destruct (H a q). Qed.

Lemma walks_ok n : forall l, List.length l <= n -> Forall walk_ok l -> forall last seen,
  agrees (fun x : list idoc * pitch * bool => (map items (fst (fst x)), snd (fst x), snd x)) (fun x => absoluted_all l (fst (fst x))) (jwalks l last seen) (walks (map items l) last seen).
Proof.
  induction n as [|n IH]; intros l L F last seen; (destruct l as [|x r]; [split; [reflexivity|constructor]|]); cbn [List.length] in L; [lia|].
  assert (X : (exists a q, x = JCheck a q) \/ (forall a q, x <> JCheck a q)) by (destruct x; try (right; discriminate); left; eauto).
  destruct X as [(a & q & ->)|X].
  - cbn [jwalks Relative_Proofs.walks map items]. destruct (read_node T P (pnode_of (fst q))) as [p|]; cbn [bindr agrees]; [|reflexivity].
    destruct r as [|y r]; cbn [map]; [split; [reflexivity|]; apply abs_check; constructor|]. cbn [List.length] in L.
    pose proof (proj2 (Forall_inv (Forall_inv_tail F))) as S.
    destruct (jsettle y) as [y'|]; cbn [agrees bindr] in *; [destruct S as [-> S]|now rewrite S]. cbn [bindr].
    pose proof (IH r ltac:(lia) (Forall_inv_tail (Forall_inv_tail F)) p true) as R.
    destruct (jwalks r p true) as [[[r' p'] s']|]; cbn [agrees fst snd bindr] in *; [destruct R as [-> R]|now rewrite R]. cbn [bindr map].
    split; [reflexivity|]. apply abs_check; [constructor|]. now apply abs_cons.
  - cbn [map]. destruct (not_check_walks x r last seen X) as [-> ->].
    pose proof (proj1 (Forall_inv F) last seen) as D. destruct (jwalk x last seen) as [[[x' p] s]|]; cbn [agrees fst snd bindr] in *; [destruct D as [-> D]|now rewrite D]. cbn [bindr].
    pose proof (IH r ltac:(lia) (Forall_inv_tail F) p s) as R.
    destruct (jwalks r p s) as [[[r' p'] s']|]; cbn [agrees fst snd bindr] in *; [destruct R as [-> R]|now rewrite R]. cbn [bindr map].
    split; [reflexivity|now constructor].
Qed.

Lemma walk_all d : walk_ok d.
Proof.
  induction d as [q|a b c kids|a q|e|a s b IH|a l IH] using idoc_ind2; (split; [intros last seen|]).
  - cbn [Absdoc_Model.jwalk items walk]. fold (pn q). pose proof (jnote_agrees q last) as N.
    destruct (jnote q last) as [[m p]|]; cbn [agrees fst snd bindr] in *; [destruct N as [-> N]|now rewrite N]. split; [reflexivity|now constructor].
  - split; [reflexivity|constructor].
  - cbn [Absdoc_Model.jwalk items walk]. pose proof (jchord_agrees c last) as N. change (map (fun q : dpitch * list elem => pnode_of (fst q)) c) with (map pn c).
    destruct (jchord c last) as [[m p]|]; cbn [agrees fst snd bindr] in *; [destruct N as [-> N]|now rewrite N]. cbn [bindr]. split; [now destruct c|now constructor].
  - split; [reflexivity|constructor].
  - cbn [Absdoc_Model.jwalk items walk]. destruct (read_node T P (pnode_of (fst q))); cbn; [split; [reflexivity|constructor]|reflexivity].
  - split; [reflexivity|constructor].
  - split; [reflexivity|constructor].
  - split; [reflexivity|constructor].
  - cbn [Absdoc_Model.jwalk items walk]. set (st := start_pitch T P fa _). destruct st as [p|]; cbn [bindr agrees]; [|reflexivity].
    pose proof (proj1 IH p false) as W. destruct (jwalk b p false) as [[[b' p'] s']|]; cbn [agrees fst snd bindr] in *; [destruct W as [-> W]|now rewrite W]. cbn [bindr].
    destruct seen; [|split; [reflexivity|now constructor]].
    pose proof (plain_all b' last) as N. destruct (jplain b' last) as [[b2 p2]|]; cbn [agrees fst snd bindr] in *; [destruct N as [-> N]|now rewrite N].
    split; [reflexivity|]. apply abs_relative. exact (proj1 absoluted_trans _ _ W _ N).
  - rewrite jsettle_rel. cbn [items]. rewrite settle_rel. set (st := start_pitch T P fa _). destruct st as [p|]; cbn [bindr agrees]; [|reflexivity].
    pose proof (proj1 IH p false) as W. destruct (jwalk b p false) as [[[b' p'] s']|]; cbn [agrees fst snd bindr] in *; [destruct W as [-> W]|now rewrite W]. cbn [bindr].
    split; [reflexivity|now constructor].
  - rewrite jwalk_list. cbn [items]. rewrite walk_list. pose proof (walks_ok _ l (le_n _) IH last seen) as R.
    destruct (jwalks l last seen) as [[[r' p'] s']|]; cbn [agrees fst snd bindr] in *; [destruct R as [-> R]|now rewrite R]. split; [reflexivity|now constructor].
  - rewrite jsettle_list. cbn [items]. rewrite settle_list'.
    assert (S : agrees (map items) (absoluted_all l) (jsettles l) (settles (map items l))).
    { clear - IH. induction IH as [|d r [_ S] _ IHr]; cbn [jsettles settles map]; [split; [reflexivity|constructor]|].
      destruct (jsettle d) as [d'|]; cbn [agrees bindr] in *; [destruct S as [-> S]|now rewrite S]. cbn [bindr].
      destruct (jsettles r) as [r'|]; cbn [agrees bindr] in *; [destruct IHr as [-> IHr]|now rewrite IHr]. cbn [bindr map]. split; [reflexivity|now constructor]. }
    destruct (jsettles l) as [l'|]; cbn [agrees bindr] in *; [destruct S as [-> S]|now rewrite S]. split; [reflexivity|now constructor].
Qed.

Lemma convert_ok f l : agrees (map entries) (Forall2 entry_absoluted l) (jconvert_where octave_id T P fa f l) (convert_where T P fa f (map entries l)).
Proof.
  induction l as [|d r IH]; cbn [jconvert_where convert_where map]; [split; [reflexivity|constructor]|].
  destruct d as [e la|sel a s b|b]; cbn [entries].
  - destruct (jconvert_where octave_id T P fa f r) as [r'|]; cbn [agrees bindr] in *; [destruct IH as [-> IH]|now rewrite IH]. cbn [bindr map entries]. split; [reflexivity|constructor; [constructor|assumption]].
  - destruct (jconvert_where octave_id T P fa f r) as [r'|]; cbn [agrees bindr] in *; [destruct IH as [-> IH]|now rewrite IH]. cbn [bindr].
    destruct (f sel); [|cbn [agrees map entries]; split; [reflexivity|constructor; [constructor|assumption]]].
    unfold convert. pose proof (proj2 (walk_all (JRelative a s b))) as W. cbn [items] in W.
    rewrite jsettle_rel in W |- *. set (st := start_pitch T P fa _) in W |- *. destruct st as [p|]; cbn [bindr agrees] in W |- *; [|now rewrite W].
    pose proof (proj1 (walk_all b) p false) as V. destruct (jwalk b p false) as [[[b' p'] s']|]; cbn [agrees fst snd bindr] in *; [|now rewrite W].
    destruct W as [-> _]. destruct V as [_ V]. cbn [bindr map entries]. split; [reflexivity|constructor; [now constructor|assumption]].
  - destruct (jconvert_where octave_id T P fa f r) as [r'|]; cbn [agrees bindr] in *; [destruct IH as [-> IH]|now rewrite IH]. cbn [bindr map entries]. split; [reflexivity|constructor; [constructor|assumption]].
Qed.
End Run.

Lemma rel2abs_ok octave_id T P fa l : agrees (map entries) (Forall2 entry_absoluted l) (jrel2abs octave_id T P fa l) (rel2abs T P fa (map entries l)).
Proof.
  unfold jrel2abs, rel2abs. destruct (first_note_met T P (map entries l)) as [[P'|]|]; cbn [bindr agrees]; [apply convert_ok|apply convert_ok|reflexivity].
Qed.

Lemma entries_reworked l l' : Forall2 entry_absoluted l l' -> Forall as_read (map jentry_element l) -> reworked_all (map jentry_element l) (map jentry_element l').
Proof.
  induction 1 as [|d d' r r' D _ IH]; intros F; cbn [map] in *; [constructor|].
  assert (X : reworked_all [jentry_element d] [jentry_element d']).
  { destruct D as [d|sel a s b b' A].
    - apply as_read_all. constructor; [exact (Forall_inv F)|constructor].
    - exact (proj1 absoluted_reworked (JRelative a s b) b' (abs_relative a s b b' A) (Forall_inv F)). }
  exact (reworked_app _ _ X _ _ (IH (Forall_inv_tail F))).
Qed.

(** ** Theorems *)

(** The elements after Rel2abs and edit(): the conversion succeeds when that of
    Relative_Model does and gives the same music (so C29 tells what it means); \relative
    commands were replaced by their music, octave checks removed, names and octaves
    changed, and nothing else.  The text is changed as [worked] tells (see
    C133_text): \relative with its start pitch and octave checks are deleted, names
    and octaves replaced in their place, and new octaves inserted. *)
Theorem C136_text : forall octave_id T P fa l t concat_space e ps doc context start end_,
  let ctx := match context with Some c => c | None => d_root doc end in
  let pos := match start with Some s => s | None => x_pos ctx end in
  let stop := match end_ with Some s => s | None => x_end ctx end in
  rel2abs T P fa (map entries l) = Ok t -> as_read e ->
  d_pending doc = [] -> points concat_space e = Ok ps ->
  tokens_from 0 (x_tokens ctx) -> cuts_no_token (x_tokens ctx) pos -> placed (x_tokens ctx) pos ps ->
  untouched (x_tokens ctx) pos [] ps -> whole_tokens (x_tokens ctx) ps -> stop <= last_end pos ps -> last_end pos ps <= List.length (d_text doc) ->
  exists l', jrel2abs octave_id T P fa l = Ok l' /\ map entries l' = t /\ Forall2 entry_absoluted l l' /\
  forall e', within (map jentry_element l) (map jentry_element l') e e' ->
  exists ps' cs, points concat_space e' = Ok ps' /\ worked stop pos [] None ps ps' cs /\ in_order 0 cs /\
    Writeback_Model.edit concat_space e' doc context start end_ = (Doc (apply_changes (d_text doc) 0 cs) (d_root doc) [], Ok (List.length cs)).
Proof.
  intros oi T P fa l t cs0 e ps doc ctx start end_ x pos stop H AR PE PS TF C PL U WT L LT.
  pose proof (rel2abs_ok oi T P fa l) as A. destruct (jrel2abs oi T P fa l) as [l'|err]; cbn [agrees] in A; [|congruence].
  destruct A as [A1 A2]. exists l'. split; [reflexivity|]. split; [congruence|]. split; [exact A2|]. intros e' W.
  refine (C133_text cs0 _ _ ps doc ctx start end_ PE PS TF C PL U WT L LT (within_reworked _ _ _ _ W AR _)).
  intros F. now apply entries_reworked.
Qed.
Print Assumptions C136_text.

(** [\relative c' { d e }] becomes [ { d' e' }]: the command, its start pitch and all
    but one of the spaces are deleted. *)
Local Open Scope string_scope. Local Open Scope list_scope. Open Scope nat_scope.
Definition ra_tokens : list token := [Tok 0 9; Tok 10 11; Tok 11 12; Tok 13 14; Tok 15 16; Tok 17 18; Tok 19 20].
Definition ra_note (name : string) (i : nat) : idoc := JNote (DP (rl_leaf 1 name i) (txt name) None None None, []).
Definition ra_relative : jentry :=
  JRel true (Attrs Head 8 (Ok (txt "\relative")) [] (Some [Tok 0 9]) None false false [] (txt " ") (txt " ") [] [])
    (Some (DP (rl_leaf 1 "c" 10) (txt "c") (Some (rl_leaf 3 "'" 11, 1%Z)) None None, []))
    (JList (Attrs Block 0 (Ok (txt "{")) (txt "}") (Some [Tok 13 14]) (Some [Tok 19 20]) false false [] (txt " ") (txt " ") (txt " ") []) [ra_note "d" 15; ra_note "e" 17]).

Example C136_witness :
  let e := rl_root (map jentry_element [ra_relative]) in
  exists t l', rel2abs ex_tables default_processor true (map entries [ra_relative]) = Ok t /\ jrel2abs 3 ex_tables default_processor true [ra_relative] = Ok l' /\
  let e' := rl_root (map jentry_element l') in
  as_read e /\ within (map jentry_element [ra_relative]) (map jentry_element l') e e' /\
  (exists ps, points concat_default e = Ok ps /\ tokens_from 0 ra_tokens /\ cuts_no_token ra_tokens 0 /\
    placed ra_tokens 0 ps /\ untouched ra_tokens 0 [] ps /\ whole_tokens ra_tokens ps /\ last_end 0 ps = 20) /\
  d_text (fst (Writeback_Model.edit concat_default e' (Doc (txt "\relative c' { d e }") (Context 0 20 ra_tokens) []) None None None)) = txt " { d' e' }".
Proof.
  assert (FIND : forall (f : token -> nat) (n : nat) ts, existsb (fun t => Nat.eqb (f t) n) ts = true -> exists t, In t ts /\ f t = n).
  { intros f n ts H. apply existsb_exists in H. destruct H as (t & I & E). apply Nat.eqb_eq in E. eauto. }
  eexists _, _. split; [vm_compute; reflexivity|]. split; [vm_compute; reflexivity|]. split; [repeat constructor|]. split; [apply within_here|].
  split; [|vm_compute; reflexivity].
  eexists; split; [vm_compute; reflexivity|]; split; [cbn; lia|]; split; [intros t _; right; lia|]; split;
    [cbn -[cuts_no_token In];
      repeat match goal with
      | |- _ /\ _ => split
      | |- exists t, In t _ /\ t_pos t = ?i => apply (FIND t_pos); reflexivity
      | |- cuts_no_token _ _ => intros t I; cbn in I; repeat destruct I as [<-|I]; cbn; try lia; destruct I
      | |- _ <= _ => lia
      | |- _ < _ => lia
      | |- True => exact I
      end|];
    split; [cbn -[strongest In];
      repeat match goal with
      | |- _ /\ _ => split
      | |- _ = false => reflexivity
      | |- True => exact I
      | |- _ = _ -> strongest ?l [] => intros E; try discriminate E; exact (strongest_collapse l)
      | |- forall t, In t _ -> _ => intros t I; cbn in I; repeat destruct I as [<-|I]; cbn; try lia; destruct I
      end|];
    split; [|reflexivity];
    repeat (apply Forall_cons; [intros i j [= <- <-]; apply (FIND t_end); reflexivity|]); constructor.
Qed.
