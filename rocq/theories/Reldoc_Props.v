(** Property C135: the text of a document after \relative is added to its music. *)
From Coq Require Import String Ascii List Arith PeanoNat ZArith QArith Bool Lia.
From Verif Require Import Pitch_Model Transpose_Model Transpose_Props.
From Verif Require Import Base Element_Model Element_Spec Element_Proofs Element_Edits Element_Props Writeback_Model Writeback_Props Writeback_Local Writeback_Remove Writeback_Mixed.
From Verif Require Import Transposedoc_Model Doctext_Model Pitch_Model Pitch_Spec Relative_Model Abs2rel_Model Reldoc_Model.
Import ListNotations.
Open Scope nat_scope.

(** ** Specification *)

(** Nothing is modified since the document was read. *)
Inductive as_read : elem -> Prop :=
| as_read_node a kids : a_head_modified a = false -> Forall as_read kids -> as_read (E a kids).

(** The octave mark of a pitch before and after. *)
Inductive same_octave : option (attrs * Z) -> option (attrs * Z) -> Prop :=
| octave_kept o : same_octave o o
| octave_changed a a' y z : retexted a a' (octave_to_string z) -> same_octave (Some (a, y)) (Some (a', z))
| octave_added a z : fresh a (octave_to_string z) -> same_octave None (Some (a, z)).

(** A pitch of which only the name and the octave were changed. *)
Inductive same_pitch : dpitch -> dpitch -> Prop :=
| same_pitch_kept a n o o' c k : same_octave o o' -> same_pitch (DP a n o c k) (DP a n o' c k)
| same_pitch_name a a' n n' o o' c k : retexted a a' n' -> same_octave o o' -> same_pitch (DP a n o c k) (DP a' n' o' c k).

(** Only pitches were changed. *)
Inductive repitched : ndoc -> ndoc -> Prop :=
| repitched_pitch q q' kids : same_pitch q q' -> repitched (NPitch q kids) (NPitch q' kids)
| repitched_lang a l kids : repitched (NLang a l kids) (NLang a l kids)
| repitched_node k a kids kids' : repitched_all kids kids' -> repitched (NNode k a kids) (NNode k a kids')
with repitched_all : list ndoc -> list ndoc -> Prop :=
| repitched_nil : repitched_all [] []
| repitched_cons d d' r r' : repitched d d' -> repitched_all r r' -> repitched_all (d :: r) (d' :: r').

(** The start pitch of a new \relative. *)
Inductive start_added : list ndoc -> Prop :=
| start_none : start_added []
| start_pitch_new a n oct : fresh a n -> match oct with None => True | Some (b, z) => fresh b (octave_to_string z) end ->
    start_added [NPitch (DP a n oct None None) []].

(** Where \relative, which is the element [relative], was added: around { ... } or
    << ... >> that are in the range as a whole, and around \chordmode; there pitches were changed.
    Nothing else was changed.  Nodes are given by the way to them. *)
Inductive related (relative : attrs) (inr whole : list nat -> bool) : list nat -> ndoc -> ndoc -> Prop :=
| related_same p d : related relative inr whole p d d
| related_pitch p q kids kids' : inr p = true -> related_all relative inr whole p 0 kids kids' ->
    related relative inr whole p (NPitch q kids) (NPitch q kids')
| related_node p k a kids kids' : inr p = true -> related_all relative inr whole p 0 kids kids' ->
    related relative inr whole p (NNode k a kids) (NNode k a kids')
| related_relative p k a kids d' start : inr p = true -> k = KList /\ whole p = true \/ k = KChordMode ->
    repitched (NNode k a kids) d' -> start_added start ->
    related relative inr whole p (NNode k a kids) (NNode KRelative relative (start ++ [d']))
with related_all (relative : attrs) (inr whole : list nat -> bool) : list nat -> nat -> list ndoc -> list ndoc -> Prop :=
| related_nil p i : related_all relative inr whole p i [] []
| related_cons p i d d' r r' : related relative inr whole (p ++ [i]) d d' -> related_all relative inr whole p (S i) r r' ->
    related_all relative inr whole p i (d :: r) (d' :: r').

(** The tree [e'] is [e] where the children [l] of one of the elements are replaced by [l']. *)
Inductive within (l l' : list elem) : elem -> elem -> Prop :=
| within_here a : within l l' (E a l) (E a l')
| within_below a before x x' after : within l l' x x' -> within l l' (E a (before ++ x :: after)) (E a (before ++ x' :: after)).

(** ** Proofs *)

Lemma ndoc_ind2 (Q : ndoc -> Prop) :
  (forall q kids, Forall Q kids -> Q (NPitch q kids)) -> (forall a l kids, Q (NLang a l kids)) ->
  (forall k a kids, Forall Q kids -> Q (NNode k a kids)) -> forall d, Q d.
Proof.
  intros H1 H2 H3. fix go 1. intros [q kids|a l kids|k a kids]; [apply H1|apply H2|apply H3];
    (induction kids as [|d r IH]; constructor; [apply go|exact IH]).
Qed.

Lemma as_read_same e : as_read e -> reworked e e.
Proof.
  induction e as [a kids IH] using elem_rect'. intros AR. inversion AR as [? ? M F]; subst. apply reworked_node; [now apply same_origin_refl|].
  clear M AR. induction IH as [|x r IX _ IHr]; [constructor|]. apply reworked_keep; [apply IX; exact (Forall_inv F)|apply IHr; exact (Forall_inv_tail F)].
Qed.
Lemma as_read_all l : Forall as_read l -> reworked_all l l.
Proof. induction 1; [constructor|]. apply reworked_keep; [now apply as_read_same|assumption]. Qed.

Lemma within_reworked l l' e e' : within l l' e e' -> as_read e -> (Forall as_read l -> reworked_all l l') -> reworked e e'.
Proof.
  induction 1 as [a|a before x x' after W IH]; intros AR H; inversion AR as [? ? M F]; subst; apply reworked_node; try now apply same_origin_refl.
  - auto.
  - apply Forall_app in F. destruct F as [F1 F2]. apply reworked_app; [now apply as_read_all|].
    apply reworked_keep; [apply IH; [exact (Forall_inv F2)|exact H]|apply as_read_all; exact (Forall_inv_tail F2)].
Qed.

Lemma octave_reworked o o' : same_octave o o' -> Forall as_read (mark o) -> reworked_all (mark o) (mark o').
Proof.
  destruct 1 as [o|a a' y z R|a z (F1 & F2 & F3 & _)]; intros F; cbn [mark] in *.
  - now apply as_read_all.
  - apply reworked_keep; [|constructor]. apply reworked_node; [exact (retexted_origin _ _ _ R)|constructor].
  - apply reworked_add; [|constructor]. now apply (brand_new_node _ _ (octave_to_string z)).
Qed.
Lemma pitch_reworked q q' kids kids' : same_pitch q q' -> as_read (pitch_element q kids) -> (Forall as_read kids -> reworked_all kids kids') ->
  reworked (pitch_element q kids) (pitch_element q' kids').
Proof.
  intros S AR H. unfold pitch_element in *. inversion AR as [? ? M F]; subst.
  apply Forall_app in F. destruct F as [F1 F]. apply Forall_app in F. destruct F as [F2 F]. apply Forall_app in F. destruct F as [F3 F4].
  destruct S as [a n o o' c k SO|a a' n n' o o' c k R SO]; cbn [q_attrs q_oct q_acc q_chk] in *;
    (apply reworked_node; [first [now apply same_origin_refl|exact (retexted_origin _ _ _ R)]|]);
    (apply reworked_app; [now apply octave_reworked|]); (apply reworked_app; [now apply as_read_all|]);
    (apply reworked_app; [now apply as_read_all|exact (H F4)]).
Qed.

Lemma repitched_reworked d : forall d', repitched d d' -> as_read (nelements d) -> reworked (nelements d) (nelements d').
Proof.
  induction d as [q kids IH|a l kids|k a kids IH] using ndoc_ind2; intros d' R AR; inversion R as [? ? ? S|? ? ?|? ? ? kids' RK]; subst; cbn [nelements] in *.
  - apply pitch_reworked; [exact S|exact AR|apply as_read_all].
  - now apply as_read_same.
  - inversion AR as [? ? M F]; subst. apply reworked_node; [now apply same_origin_refl|].
    clear - IH RK F. revert kids' RK. induction IH as [|d r ID _ IHr]; intros kids' RK; inversion RK as [|? ? ? ? RD RR]; subst; cbn [map] in *; [constructor|].
    apply reworked_keep; [exact (ID _ RD (Forall_inv F))|exact (IHr (Forall_inv_tail F) _ RR)].
Qed.

Section Redo.
Variables (octave_id pitch_id : nat) (relative : attrs).
Notation nredo := (nredo octave_id pitch_id relative).
Notation nredo_all := (nredo_all octave_id pitch_id relative).
Variables inr whole : list nat -> bool.
Notation related := (related relative inr whole).
Notation related_all := (related_all relative inr whole).
Hypothesis relative_new : exists t, fresh relative t.

Lemma start_new l : start_added l -> reworked_all [] (map nelements l).
Proof.
  destruct 1 as [|a n oct (F1 & F2 & F3 & _) FO]; cbn [map]; [constructor|]. apply reworked_add; [|constructor].
  cbn [nelements map]. unfold pitch_element. cbn [q_attrs q_oct q_acc q_chk mark sign app]. rewrite app_nil_r. apply (brand_new_node _ _ n); auto.
  destruct oct as [[b z]|]; cbn [mark]; [|constructor]. destruct FO as (O1 & O2 & O3 & _). constructor; [|constructor].
  now apply (brand_new_node _ _ (octave_to_string z)).
Qed.

Lemma related_reworked d : forall p d', related p d d' -> as_read (nelements d) -> reworked_all [nelements d] [nelements d'].
Proof.
  induction d as [q kids IH|a l kids|k a kids IH] using ndoc_ind2; intros p d' R AR.
  1,3: assert (K : forall i kids', related_all p i kids kids' -> Forall as_read (map nelements kids) -> reworked_all (map nelements kids) (map nelements kids'));
    [clear - IH; induction IH as [|d r ID _ IHr]; intros i kids' RK F; inversion RK as [|? ? ? ? ? ? RD RR]; subst; cbn [map] in *;
      [constructor|exact (reworked_app _ _ (ID _ _ RD (Forall_inv F)) _ _ (IHr _ _ RR (Forall_inv_tail F)))]|].
  - inversion R as [? ?|? ? ? kids' I RK| |]; subst; cbn [nelements] in *; (apply reworked_keep; [|constructor]); [now apply as_read_same|].
    apply pitch_reworked; [destruct q; apply same_pitch_kept, octave_kept|exact AR|apply (K _ _ RK)].
  - inversion R as [? ?| |? ? ? ? kids' I RK|? ? ? ? d1 start I KK RP SA]; subst.
    + apply reworked_keep; [now apply as_read_same|constructor].
    + cbn [nelements] in *. inversion AR as [? ? M F]; subst. apply reworked_keep; [|constructor].
      apply reworked_node; [now apply same_origin_refl|exact (K _ _ RK F)].
    + destruct relative_new as (t & N1 & N2 & N3 & _). cbn [nelements]. rewrite map_app. cbn [map].
      apply (reworked_wrap relative t [nelements (NNode k a kids)] _ [] []); auto; [|constructor].
      apply (reworked_app [] _ (start_new _ SA) [_] [_]). apply reworked_keep; [|constructor]. now apply repitched_reworked.
  - inversion R; subst. apply reworked_keep; [now apply as_read_same|constructor].
Qed.

Lemma nredo_pitch q kids n ts : nredo (NPitch q kids) (TNote n ts) = NPitch (redo_pitch octave_id q n) (nredo_all kids ts).
Proof. reflexivity. Qed.
Lemma nredo_node k a kids t : nredo (NNode k a kids) t =
  match wrapped k t with
  | Some (start, ts) => NNode KRelative relative (match start with Some n => [NPitch (new_pitch pitch_id octave_id n) []] | None => [] end ++ [NNode k a (nredo_all kids ts)])
  | None => NNode k a (nredo_all kids (tkids t))
  end.
Proof. reflexivity. Qed.

Lemma str_eqb_refl s : str_eqb s s = true.
Proof. unfold str_eqb. now destruct (list_eq_dec ascii_dec s s). Qed.
Lemma str_eqb_true s t : str_eqb s t = true -> s = t.
Proof. unfold str_eqb. now destruct (list_eq_dec ascii_dec s t). Qed.
Lemma set_head_retexted a t : retexted a (set_head a false t) t.
Proof. now repeat split. Qed.

Lemma redo_pitch_same q : redo_pitch octave_id q (pnode_of q) = q.
Proof.
  destruct q as [a n o c k]. unfold redo_pitch, pnode_of. cbn [q_attrs q_name q_oct q_acc q_chk Pitch_Model.head octave_child oct_check].
  rewrite str_eqb_refl. unfold set_head at 1. f_equal; [destruct o as [[b z]|]|destruct k as [[b z]|]]; try reflexivity; cbn; now rewrite Z.eqb_refl.
Qed.
Lemma nredo_same d : nredo d (ntree d) = d.
Proof.
  induction d as [q kids IH|a l kids|k a kids IH] using ndoc_ind2; [|reflexivity|].
  1,2: assert (K : nredo_all kids (map ntree kids) = kids) by (clear - IH; induction IH as [|d r ID _ IHr]; cbn [map Reldoc_Model.nredo_all]; [reflexivity|now rewrite ID, IHr]).
  - cbn [ntree]. rewrite nredo_pitch, redo_pitch_same, K. reflexivity.
  - cbn [ntree]. rewrite nredo_node. cbn [tkids].
    assert (W : wrapped k (TNode k (map ntree kids)) = None) by now destruct k. now rewrite W, K.
Qed.

(** A pitch as [write_node] leaves it. *)
Definition rewritten (n m : pnode) : Prop :=
  oct_check m = oct_check n /\ (octave_child n = None \/ exists z, octave_child m = Some z).
Lemma rewritten_refl n : rewritten n n.
Proof. split; [reflexivity|]. destruct (octave_child n); eauto. Qed.
Lemma set_octave_rewritten n h z : rewritten n (set_node_octave (set_node_head n h) z) /\ rewritten n (set_node_octave n z).
Proof.
  unfold set_node_octave, set_node_head. cbn [octave_child oct_check Pitch_Model.head]. destruct (octave_child n) as [y|] eqn:O.
  - split; (split; [reflexivity|right; eexists; reflexivity]).
  - destruct (z =? 0)%Z; split; (split; [reflexivity|now left]).
Qed.
Lemma write_rewritten T P n p m r : write_node T P n p = (m, r) -> rewritten n m.
Proof.
  unfold write_node. destruct (pitch_of_name T P (Pitch_Model.head n)) as [q|]; [|intros [= <- <-]; apply rewritten_refl].
  match goal with |- (if ?c then _ else _) = _ -> _ => destruct c end; [intros [= <- <-]; exact (proj2 (set_octave_rewritten n [] _))|].
  destruct (name_octave T P p) as [[h o]|]; intros [= <- <-]; [|apply rewritten_refl]. exact (proj1 (set_octave_rewritten n h o)).
Qed.
Lemma process_rewritten T P n f m r : process T P n true f = (m, r) -> rewritten n m.
Proof.
  unfold process. destruct (read_node T P n) as [p|]; [|intros [= <- <-]; apply rewritten_refl].
  destruct (f p) as [p'|]; [|intros [= <- <-]; apply rewritten_refl].
  destruct (write_node T P n p') as [n' r'] eqn:W. intros [= <- <-]. exact (write_rewritten _ _ _ _ _ _ W).
Qed.
Lemma relative_note_rewritten T P fa ws n last new m p new' : relative_note T P fa ws n last new = Ok (m, p, new') ->
  rewritten n m /\ (new' = new \/ exists q l, first_pitch T P fa ws q = Ok (l, new')).
Proof.
  unfold relative_note. destruct (read_node T P n) as [p0|]; [|discriminate]. cbn [bindr].
  destruct last as [l|]; cbn [bindr].
  - destruct (process T P n true _) as [m' r] eqn:PR. destruct r as [r|]; [|discriminate]. cbn [bindr]. intros [= <- <- <-].
    split; [exact (process_rewritten _ _ _ _ _ _ PR)|now left].
  - destruct (first_pitch T P fa ws p0) as [[l n0]|] eqn:FP; [|discriminate]. cbn [bindr].
    destruct (process T P n true _) as [m' r] eqn:PR. destruct r as [r|]; [|discriminate]. cbn [bindr]. intros [= <- <- <-].
    split; [exact (process_rewritten _ _ _ _ _ _ PR)|]. right. now exists p0, l.
Qed.

Lemma redo_pitch_spec q m : rewritten (pnode_of q) m -> pnode_of (redo_pitch octave_id q m) = m /\ same_pitch q (redo_pitch octave_id q m).
Proof.
  destruct q as [a n o c k]. unfold rewritten, redo_pitch, pnode_of. cbn [q_attrs q_name q_oct q_acc q_chk Pitch_Model.head octave_child oct_check].
  destruct m as [h mo mk]. cbn [Pitch_Model.head octave_child oct_check]. intros [-> O].
  assert (CK : redo_check k (option_map snd k) = k) by (destruct k as [[b z]|]; [cbn; now rewrite Z.eqb_refl|reflexivity]).
  assert (SO : option_map snd (redo_octave octave_id o mo) = mo /\ same_octave o (redo_octave octave_id o mo)).
  { destruct o as [[b y]|]; cbn [option_map] in O.
    - destruct O as [O|(z & O)]; [discriminate|]. subst mo. cbn [redo_octave option_map snd]. split; [reflexivity|].
      destruct (Z.eqb_spec z y) as [->|NE]; [apply octave_kept|]. apply octave_changed, set_head_retexted.
    - destruct mo as [z|]; cbn; (split; [reflexivity|]); [|apply octave_kept]. apply octave_added. now repeat split. }
  destruct SO as [SO1 SO2]. rewrite CK, SO1. split; [reflexivity|].
  destruct (str_eqb h n) eqn:HN; cbn [set_head].
  - apply str_eqb_true in HN. subst h. now apply same_pitch_kept.
  - apply same_pitch_name; [apply set_head_retexted|exact SO2].
Qed.

Section Run.
Variables (T : tables) (fa ws : bool).
Notation relative_tree := (relative_tree T fa ws).

Fixpoint relative_trees (l : list tree) (P : processor) (last : option pitch) (new : option pnode) : res (list tree * option pitch * option pnode * processor) :=
  match l with
  | [] => Ok ([], last, new, P)
  | x :: r => let! (x', last, new, P) := relative_tree x P last new in
              let! (r', last, new, P) := relative_trees r P last new in Ok (x' :: r', last, new, P)
  end.
Lemma relative_tree_node k l P last new : relative_tree (TNode k l) P last new =
  match k with
  | KChord | KOpaque | KFixed => Ok (TNode k l, last, new, P)
  | _ => let! (l', last, new, P) := relative_trees l P last new in Ok (TNode k l', last, new, P)
  end.
Proof. reflexivity. Qed.

Lemma wrapped_own k ts : wrapped k (TNode k ts) = None.
Proof. now destruct k. Qed.

Lemma relative_tree_spec d : forall P last new t last' new' P', relative_tree (ntree d) P last new = Ok (t, last', new', P') ->
  ntree (nredo d t) = t /\ repitched d (nredo d t).
Proof.
  induction d as [q kids IH|a l kids|k a kids IH] using ndoc_ind2; intros P last new t last' new' P' H; cbn [ntree] in H.
  - cbn [Abs2rel_Model.relative_tree] in H. destruct (relative_note T P fa ws (pnode_of q) last new) as [[[m p] n0]|] eqn:N; [|discriminate]. cbn [bindr] in H.
    injection H as <- _ _ _. destruct (relative_note_rewritten _ _ _ _ _ _ _ _ _ _ N) as [RW _]. destruct (redo_pitch_spec q m RW) as [E S].
    assert (K : nredo_all kids (map ntree kids) = kids) by (pose proof (nredo_same (NPitch q kids)) as X; cbn [ntree] in X; rewrite nredo_pitch in X; now injection X).
    rewrite nredo_pitch, K. cbn [ntree]. rewrite E. split; [reflexivity|now constructor].
  - cbn [Abs2rel_Model.relative_tree] in H. destruct (language_set T P l) as [P1|]; [|discriminate]. cbn [bindr] in H. injection H as <- _ _ _. split; [reflexivity|constructor].
  - rewrite relative_tree_node in H.
    assert (SAME : t = TNode k (map ntree kids) -> ntree (nredo (NNode k a kids) t) = t /\ repitched (NNode k a kids) (nredo (NNode k a kids) t)).
    { intros ->. change (TNode k (map ntree kids)) with (ntree (NNode k a kids)). rewrite nredo_same. split; [reflexivity|]. apply repitched_node.
      clear. induction kids as [|d r IH]; constructor; [|exact IH]. clear. induction d as [q kids IH|a l kids|k a kids IH] using ndoc_ind2; constructor.
      - destruct q. apply same_pitch_kept, octave_kept.
      - induction IH; constructor; assumption. }
    assert (WALK : (let! (l', last, new, P) := relative_trees (map ntree kids) P last new in Ok (TNode k l', last, new, P)) = Ok (t, last', new', P') ->
      ntree (nredo (NNode k a kids) t) = t /\ repitched (NNode k a kids) (nredo (NNode k a kids) t)).
    { clear H SAME. intros H. destruct (relative_trees (map ntree kids) P last new) as [[[[l' la] ne] P1]|] eqn:R; [|discriminate]. cbn [bindr] in H. injection H as <- _ _ _.
      rewrite nredo_node, wrapped_own. cbn [tkids ntree].
      assert (K : map ntree (nredo_all kids l') = l' /\ repitched_all kids (nredo_all kids l')).
      { clear - IH R. revert P last new l' la ne P1 R. induction IH as [|d r ID _ IHr]; intros P last new l' la ne P1 R; cbn [map relative_trees] in R.
        - injection R as <- _ _ _. split; [reflexivity|constructor].
        - destruct (relative_tree (ntree d) P last new) as [[[[x' la1] ne1] P2]|] eqn:X; [|discriminate]. cbn [bindr] in R.
          destruct (relative_trees (map ntree r) P2 la1 ne1) as [[[[r' la2] ne2] P3]|] eqn:Y; [|discriminate]. cbn [bindr] in R. injection R as <- _ _ _.
          destruct (ID _ _ _ _ _ _ _ X) as [E1 E2]. destruct (IHr _ _ _ _ _ _ _ Y) as [E3 E4].
          cbn [Reldoc_Model.nredo_all map]. rewrite E1, E3. split; [reflexivity|now constructor]. }
      destruct K as [K1 K2]. rewrite K1. split; [reflexivity|now constructor]. }
    destruct k; first [exact (WALK H)|apply SAME; now injection H].
Qed.

Lemma new_start d : forall P last new t last' new' P', relative_tree (ntree d) P last new = Ok (t, last', new', P') ->
  (forall n, new = Some n -> oct_check n = None) -> forall n, new' = Some n -> oct_check n = None.
Proof.
  assert (NOTE : forall P n last new m p new', relative_note T P fa ws n last new = Ok (m, p, new') ->
    (forall n, new = Some n -> oct_check n = None) -> forall n, new' = Some n -> oct_check n = None).
  { intros P n last new m p new' H I x ->. destruct (relative_note_rewritten _ _ _ _ _ _ _ _ _ _ H) as [_ [E|(q & l & FP)]]; [now apply I|].
    unfold first_pitch in FP. destruct ws; [|discriminate]. destruct (name_octave T P _) as [[h o]|]; [|discriminate]. cbn [bindr] in FP. injection FP as _ <-.
    unfold set_node_octave. cbn. now destruct (o =? 0)%Z. }
  induction d as [q kids IH|a l kids|k a kids IH] using ndoc_ind2; intros P last new t last' new' P' H I; cbn [ntree] in H.
  - cbn [Abs2rel_Model.relative_tree] in H. destruct (relative_note T P fa ws (pnode_of q) last new) as [[[m p] n0]|] eqn:N; [|discriminate]. cbn [bindr] in H.
    injection H as _ _ <- _. exact (NOTE _ _ _ _ _ _ _ N I).
  - cbn [Abs2rel_Model.relative_tree] in H. destruct (language_set T P l) as [P1|]; [|discriminate]. cbn [bindr] in H. now injection H as _ _ <- _.
  - rewrite relative_tree_node in H.
    assert (WALK : (let! (l', last, new, P) := relative_trees (map ntree kids) P last new in Ok (TNode k l', last, new, P)) = Ok (t, last', new', P') ->
      forall n, new' = Some n -> oct_check n = None).
    { clear H. intros H. destruct (relative_trees (map ntree kids) P last new) as [[[[l' la] ne] P1]|] eqn:R; [|discriminate]. cbn [bindr] in H. injection H as _ _ <- _.
      clear - IH R I. revert P last new I l' la ne P1 R. induction IH as [|d r ID _ IHr]; intros P last new I l' la ne P1 R; cbn [map relative_trees] in R.
      - now injection R as _ _ <- _.
      - destruct (relative_tree (ntree d) P last new) as [[[[x' la1] ne1] P2]|] eqn:X; [|discriminate]. cbn [bindr] in R.
        destruct (relative_trees (map ntree r) P2 la1 ne1) as [[[[r' la2] ne2] P3]|] eqn:Y; [|discriminate]. cbn [bindr] in R. injection R as _ _ <- _.
        exact (IHr _ _ _ (ID _ _ _ _ _ _ _ X I) _ _ _ _ Y). }
    destruct k; first [exact (WALK H)|injection H as _ _ <- _; exact I].
Qed.

Lemma new_pitch_spec n : oct_check n = None -> pnode_of (new_pitch pitch_id octave_id n) = n /\ start_added [NPitch (new_pitch pitch_id octave_id n) []].
Proof.
  destruct n as [h o c]. cbn [oct_check]. intros ->. unfold new_pitch, pnode_of. cbn. split; [now destruct o|].
  apply start_pitch_new; [now repeat split|]. destruct o; cbn; [now repeat split|exact I].
Qed.

Lemma make_relative_spec k a kids P t P' : k <> KRelative -> make_relative_tree T fa ws (ntree (NNode k a kids)) P = Ok (t, P') ->
  ntree (nredo (NNode k a kids) t) = t /\
  exists start d', nredo (NNode k a kids) t = NNode KRelative relative (start ++ [d']) /\ start_added start /\ repitched (NNode k a kids) d'.
Proof.
  intros NR H. unfold make_relative_tree in H.
  destruct (relative_tree (ntree (NNode k a kids)) P None None) as [[[[t' la] ne] P1]|] eqn:R; [|discriminate]. cbn [bindr] in H. injection H as <- _.
  destruct (relative_tree_spec _ _ _ _ _ _ _ _ R) as [E RP]. pose proof (new_start _ _ _ _ _ _ _ _ R (fun n (X : None = Some n) => ltac:(discriminate X))) as NS.
  assert (F : exists ts, t' = TNode k ts).
  { cbn [ntree] in R. rewrite relative_tree_node in R. destruct k;
      first [injection R as <- _ _ _; eauto
            |destruct (relative_trees (map ntree kids) P None None) as [[[[l' la1] ne1] P2]|]; [|discriminate]; cbn [bindr] in R; injection R as <- _ _ _; eauto]. }
  destruct F as (ts & ->).
  assert (D : nredo (NNode k a kids) (TNode k ts) = NNode k a (nredo_all kids ts)) by (rewrite nredo_node, wrapped_own; reflexivity).
  rewrite D in E, RP.
  assert (W : wrapped k (TNode KRelative (match ne with Some n => [TNote n []] | None => [] end ++ [TNode k ts])) = Some (ne, ts)).
  { destruct ne; cbn [app]; destruct k; try reflexivity; now destruct NR. }
  rewrite nredo_node, W.
  assert (S : start_added (match ne with Some n => [NPitch (new_pitch pitch_id octave_id n) []] | None => [] end) /\
    map ntree (match ne with Some n => [NPitch (new_pitch pitch_id octave_id n) []] | None => [] end) = match ne with Some n => [TNote n []] | None => [] end).
  { destruct ne as [n|]; [|split; [constructor|reflexivity]]. destruct (new_pitch_spec n (NS n eq_refl)) as [S1 S2]. split; [exact S2|]. cbn [map ntree]. now rewrite S1. }
  destruct S as [S1 S2]. split; [|eexists _, _; split; [reflexivity|now split]].
  cbn [ntree]. rewrite map_app, S2. cbn [map]. now rewrite E.
Qed.

Section Kids.
Variable p : list nat.
Fixpoint edit_kids (i : nat) (l : list tree) (P : processor) : res (list tree * processor) :=
  match l with
  | [] => Ok ([], P)
  | x :: r => let! (x', P) := edit_tree T fa ws inr whole (p ++ [i]) x P in
              let! (r', P) := edit_kids (S i) r P in Ok (x' :: r', P)
  end.
End Kids.
Lemma edit_tree_eq p t P : edit_tree T fa ws inr whole p t P =
  if inr p then
    match t with
    | TLang _ => Ok (t, P)
    | TNote n l => let! (l', P) := edit_kids p 0 l P in Ok (TNote n l', P)
    | TNode KRelative _ => Ok (t, P)
    | TNode KChordMode _ => make_relative_tree T fa ws t P
    | TNode KList l => if existsb is_note l && whole p then make_relative_tree T fa ws t P
                       else let! (l', P) := edit_kids p 0 l P in Ok (TNode KList l', P)
    | TNode k l => let! (l', P) := edit_kids p 0 l P in Ok (TNode k l', P)
    end
  else Ok (t, P).
Proof. destruct t; reflexivity. Qed.

Lemma edit_tree_spec d : forall p P t P', edit_tree T fa ws inr whole p (ntree d) P = Ok (t, P') ->
  ntree (nredo d t) = t /\ related p d (nredo d t).
Proof.
  induction d as [q kids IH|a l kids|k a kids IH] using ndoc_ind2; intros p P t P' H; rewrite edit_tree_eq in H;
    (destruct (inr p) eqn:I; [|injection H as <- _; rewrite nredo_same; split; [reflexivity|constructor]]); cbn [ntree] in H.
  1,3: assert (K : forall i P l' P', edit_kids p i (map ntree kids) P = Ok (l', P') -> map ntree (nredo_all kids l') = l' /\ related_all p i kids (nredo_all kids l'));
    [clear - IH; induction IH as [|d r ID _ IHr]; intros i P l' P' R; cbn [map edit_kids] in R;
      [injection R as <- _; split; [reflexivity|constructor]
      |destruct (edit_tree T fa ws inr whole (p ++ [i]) (ntree d) P) as [[x' P2]|] eqn:X; [|discriminate]; cbn [bindr] in R;
       destruct (edit_kids p (S i) (map ntree r) P2) as [[r' P3]|] eqn:Y; [|discriminate]; cbn [bindr] in R; injection R as <- _;
       destruct (ID _ _ _ _ X) as [E1 E2]; destruct (IHr _ _ _ _ Y) as [E3 E4];
       cbn [Reldoc_Model.nredo_all map]; rewrite E1, E3; split; [reflexivity|now constructor]]|].
  - destruct (edit_kids p 0 (map ntree kids) P) as [[l' P1]|] eqn:R; [|discriminate]. cbn [bindr] in H. injection H as <- _.
    destruct (K _ _ _ _ R) as [K1 K2]. rewrite nredo_pitch. cbn [ntree]. rewrite redo_pitch_same, K1. split; [reflexivity|now constructor].
  - assert (WALK : (let! (l', P) := edit_kids p 0 (map ntree kids) P in Ok (TNode k l', P)) = Ok (t, P') ->
      ntree (nredo (NNode k a kids) t) = t /\ related p (NNode k a kids) (nredo (NNode k a kids) t)).
    { clear H. intros H. destruct (edit_kids p 0 (map ntree kids) P) as [[l' P1]|] eqn:R; [|discriminate]. cbn [bindr] in H. injection H as <- _.
      destruct (K _ _ _ _ R) as [K1 K2]. rewrite nredo_node, wrapped_own. cbn [ntree tkids]. rewrite K1. split; [reflexivity|now constructor]. }
    assert (WRAP : k = KList /\ whole p = true \/ k = KChordMode -> make_relative_tree T fa ws (TNode k (map ntree kids)) P = Ok (t, P') ->
      ntree (nredo (NNode k a kids) t) = t /\ related p (NNode k a kids) (nredo (NNode k a kids) t)).
    { clear H. intros C H. assert (NR : k <> KRelative) by (destruct C as [[-> _]| ->]; discriminate).
      destruct (make_relative_spec k a kids P t P' NR H) as (E & start & d' & D & S & R). split; [exact E|]. rewrite D. now constructor. }
    destruct k; try exact (WALK H).
    + destruct (existsb is_note (map ntree kids) && whole p) eqn:C; [|exact (WALK H)]. apply andb_true_iff in C. apply WRAP; [left; now split|exact H].
    + injection H as <- _. change (TNode KRelative (map ntree kids)) with (ntree (NNode KRelative a kids)). rewrite nredo_same. split; [reflexivity|constructor].
    + apply WRAP; [now right|exact H].
  - injection H as <- _. split; [reflexivity|constructor].
Qed.

Lemma edit_range_spec l P ts : edit_range T fa ws inr whole (map ntree l) P = Ok ts ->
  map ntree (nredo_all l ts) = ts /\ related_all [] 0 l (nredo_all l ts).
Proof.
  unfold edit_range. destruct (edit_trees T fa ws inr whole [] 0 (map ntree l) P) as [[l' P']|] eqn:R; [|discriminate]. cbn [bindr]. intros [= <-].
  revert P l' P' R. generalize 0. induction l as [|d r IH]; intros i P l' P' R; cbn [map edit_trees] in R.
  - injection R as <- _. split; [reflexivity|constructor].
  - destruct (edit_tree T fa ws inr whole ([] ++ [i]) (ntree d) P) as [[x' P2]|] eqn:X; [|discriminate]. cbn [bindr] in R.
    destruct (edit_trees T fa ws inr whole [] (S i) (map ntree r) P2) as [[r' P3]|] eqn:Y; [|discriminate]. cbn [bindr] in R. injection R as <- _.
    destruct (edit_tree_spec _ _ _ _ _ X) as [E1 E2]. destruct (IH _ _ _ _ Y) as [E3 E4].
    cbn [Reldoc_Model.nredo_all map]. rewrite E1, E3. split; [reflexivity|now constructor].
Qed.
Lemma related_all_reworked l p i l' : related_all p i l l' -> Forall as_read (map nelements l) -> reworked_all (map nelements l) (map nelements l').
Proof.
  revert i l'. induction l as [|d r IH]; intros i l' R F; inversion R as [|? ? ? ? ? ? RD RR]; subst; cbn [map] in *; [constructor|].
  exact (reworked_app _ _ (related_reworked _ _ _ RD (Forall_inv F)) _ _ (IH _ _ RR (Forall_inv_tail F))).
Qed.
End Run.
End Redo.

(** ** Theorems *)

(** The elements after Abs2rel and edit(): the nodes are those that were computed, and
    but for \relative commands that were added, with or without a start pitch, and names
    and octaves in them, nothing changed.  The text is changed as [worked] tells (see C133_text): new names and
    octaves replace the old ones, the new \relative and octaves are inserted.
    [l] are the children of the ancestor of the range, wherever it is in the tree [e]. *)
Theorem C135_text : forall octave_id pitch_id relative T fa ws inr whole P l ts concat_space e e' ps doc context start end_,
  let ctx := match context with Some c => c | None => d_root doc end in
  let pos := match start with Some s => s | None => x_pos ctx end in
  let stop := match end_ with Some s => s | None => x_end ctx end in
  let l' := nredo_all octave_id pitch_id relative l ts in
  edit_range T fa ws inr whole (map ntree l) P = Ok ts ->
  fresh relative (txt "\relative") -> as_read e -> within (map nelements l) (map nelements l') e e' ->
  d_pending doc = [] -> points concat_space e = Ok ps ->
  tokens_from 0 (x_tokens ctx) -> cuts_no_token (x_tokens ctx) pos -> placed (x_tokens ctx) pos ps ->
  untouched (x_tokens ctx) pos [] ps -> whole_tokens (x_tokens ctx) ps -> stop <= last_end pos ps -> last_end pos ps <= List.length (d_text doc) ->
  map ntree l' = ts /\ related_all relative inr whole [] 0 l l' /\
  exists ps' cs, points concat_space e' = Ok ps' /\ worked stop pos [] None ps ps' cs /\ in_order 0 cs /\
    Writeback_Model.edit concat_space e' doc context start end_ = (Doc (apply_changes (d_text doc) 0 cs) (d_root doc) [], Ok (List.length cs)).
Proof.
  intros oi pi rel T fa ws inr whole P l ts cs0 e e' ps doc ctx start end_ x pos stop l' H FR AR W PE PS TF C PL U WT L LT.
  destruct (edit_range_spec oi pi rel inr whole T fa ws l P ts H) as [E R]. split; [exact E|]. split; [exact R|].
  refine (C133_text cs0 _ _ ps doc ctx start end_ PE PS TF C PL U WT L LT (within_reworked _ _ _ _ W AR _)).
  exact (related_all_reworked rel inr whole (ex_intro _ _ FR) l _ _ _ R).
Qed.
Print Assumptions C135_text.

(** [{ d' e' }] becomes [\relative c' { d e }]. *)
Local Open Scope string_scope. Local Open Scope list_scope. Open Scope nat_scope.
Definition rl_tokens : list token := [Tok 0 1; Tok 2 3; Tok 3 4; Tok 5 6; Tok 6 7; Tok 8 9].
Definition rl_leaf (id : nat) (t : string) (i : nat) : attrs := Attrs Head id (Ok (txt t)) [] (Some [Tok i (i + 1)]) None false false [] [] [] [] [].
Definition rl_note (name : string) (i : nat) : ndoc := NPitch (DP (rl_leaf 1 name i) (txt name) (Some (rl_leaf 3 "'" (i + 1), 1%Z)) None None) [].
Definition rl_list : ndoc :=
  NNode KList (Attrs Block 0 (Ok (txt "{")) (txt "}") (Some [Tok 0 1]) (Some [Tok 8 9]) false false [] (txt " ") (txt " ") (txt " ") []) [rl_note "d" 2; rl_note "e" 5].
Definition rl_root (kids : list elem) : elem := E (Attrs Plain 9 (Ok []) [] None None false false [] [] (txt " ") [] []) kids.
Definition rl_relative : attrs := Attrs Head 8 (Ok (txt "\relative")) [] None None false false [] (txt " ") (txt " ") [] [].
Definition rl_all (p : list nat) : bool := true.

Example C135_witness :
  let e := rl_root (map nelements [rl_list]) in
  exists ts, edit_range ex_tables true true rl_all rl_all (map ntree [rl_list]) default_processor = Ok ts /\
  let l' := nredo_all 3 2 rl_relative [rl_list] ts in
  let e' := rl_root (map nelements l') in
  fresh rl_relative (txt "\relative") /\ as_read e /\ within (map nelements [rl_list]) (map nelements l') e e' /\
  (exists ps, points concat_default e = Ok ps /\ tokens_from 0 rl_tokens /\ cuts_no_token rl_tokens 0 /\
    placed rl_tokens 0 ps /\ untouched rl_tokens 0 [] ps /\ whole_tokens rl_tokens ps /\ last_end 0 ps = 9) /\
  d_text (fst (Writeback_Model.edit concat_default e' (Doc (txt "{ d' e' }") (Context 0 9 rl_tokens) []) None None None)) = txt "\relative c' { d e }".
Proof.
  assert (FIND : forall (f : token -> nat) (n : nat) ts, existsb (fun t => Nat.eqb (f t) n) ts = true -> exists t, In t ts /\ f t = n).
  { intros f n ts H. apply existsb_exists in H. destruct H as (t & I & E). apply Nat.eqb_eq in E. eauto. }
  eexists. split; [vm_compute; reflexivity|]. split; [now repeat split|]. split; [repeat constructor|]. split; [apply within_here|].
  split; [|vm_compute; reflexivity].
  eexists; split; [vm_compute; reflexivity|]; split; [cbn; lia|]; split; [intros t _; right; lia|]; split;
    [cbn -[cuts_no_token In];
      repeat match goal with
      | |- _ /\ _ => split
      | |- exists t, In t _ /\ t_pos t = ?i => apply (FIND t_pos); reflexivity
      | |- cuts_no_token _ _ => intros t I; cbn in I; repeat destruct I as [<-|I]; cbn; try lia; destruct I
      | |- _ <= _ => lia
      | |- _ < _ => lia
      | |- True => exact I
      end|];
    split; [cbn -[strongest In];
      repeat match goal with
      | |- _ /\ _ => split
      | |- _ = false => reflexivity
      | |- True => exact I
      | |- _ = _ -> strongest ?l [] => intros E; try discriminate E; exact (strongest_collapse l)
      | |- forall t, In t _ -> _ => intros t I; cbn in I; repeat destruct I as [<-|I]; cbn; try lia; destruct I
      end|];
    split; [|reflexivity];
    repeat (apply Forall_cons; [intros i j [= <- <-]; apply (FIND t_end); reflexivity|]); constructor.
Qed.
