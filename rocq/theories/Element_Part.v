(** Property C143: the text of a part of a tree is a part of the text of the tree. *)
From Coq Require Import String Ascii List Bool Arith Lia.
From Verif Require Import Base Element_Model Element_Spec Element_Proofs Element_Props.
Import ListNotations.

(** ** Specification *)

(** The node itself or a node somewhere below it. *)
Inductive within : elem -> elem -> Prop :=
| within_self e : within e e
| within_child d n a kids : In n kids -> within d n -> within d (E a kids).

(** ** Proofs *)

Fixpoint add_last (ws : list str) (l : list (str * list str)) : list (str * list str) :=
  match l with [] => [] | [(t, v)] => [(t, v ++ ws)] | x :: r => x :: add_last ws r end.
Lemma sections_app a b : sections (a ++ b) =
  match snd (sections a) with
  | [] => (fst (sections a) ++ fst (sections b), snd (sections b))
  | l => (fst (sections a), add_last (fst (sections b)) l ++ snd (sections b))
  end.
Proof.
  induction a as [|[w|f] a IH]; cbn [app sections].
  - destruct (sections b); reflexivity.
  - rewrite IH. destruct (sections a) as [ws [|x l]]; reflexivity.
  - rewrite IH. destruct (sections a) as [ws [|x l]]; cbn [fst snd]; destruct (f_text f) as [[|c t]|]; try reflexivity.
Qed.
Lemma joined_app a : forall b s, a <> [] -> b <> [] -> joined (a ++ b) s ->
  exists s1 g s2, s = s1 ++ g ++ s2 /\ joined a s1 /\ strongest (trailing [] a) g /\ joined b s2.
Proof.
  induction a as [|[t v] a IH]; intros b s NA NB J; [congruence|].
  destruct a as [|y a].
  - cbn [app] in J. inversion J as [|t' ws'|t' v' g x l s' G J']; subst; [congruence|].
    exists t, g, s'. split; [reflexivity|]. split; [constructor|]. split; [exact G|exact J'].
  - cbn [app] in J. inversion J as [|t' ws'|t' v' g x l s' G J']; subst.
    change (y :: a ++ b) with ((y :: a) ++ b) in J'. destruct (IH b s' ltac:(discriminate) NB J') as (s1 & g1 & s2 & -> & J1 & G1 & J2).
    exists (t ++ g ++ s1), g1, s2. split; [now rewrite !app_assoc|]. split; [constructor; assumption|]. split; [exact G1|exact J2].
Qed.
Lemma joined_drop ws l s : joined (add_last ws l) s -> joined l s.
Proof.
  revert s. induction l as [|[t v] l IH]; intros s J; [exact J|].
  destruct l as [|y l]; [inversion J; constructor|].
  change (add_last ws ((t, v) :: y :: l)) with ((t, v) :: add_last ws (y :: l)) in J.
  destruct (add_last ws (y :: l)) as [|z zs] eqn:A; [destruct y, l; discriminate|].
  inversion J as [|? ?|? ? g x q s' G J' E]; subst. constructor; [exact G|]. now apply IH.
Qed.
Lemma joined_unique l s t : joined l s -> joined l t -> s = t.
Proof.
  intros J. revert t. induction J as [|u ws|u ws g x l s G J IH]; intros t K; inversion K; subst; try reflexivity.
  match goal with H : strongest _ _ |- _ => idtac end.
  f_equal. f_equal; [eapply strongest_unique; eassumption|]. now apply IH.
Qed.

Lemma joined_right a b s : joined (snd (sections (a ++ b))) s -> forall t, joined (snd (sections b)) t -> exists pre, s = pre ++ t.
Proof.
  intros J t K. rewrite sections_app in J. destruct (snd (sections a)) as [|x l] eqn:A; cbn [snd] in J.
  - exists []. cbn. eapply joined_unique; eauto.
  - destruct (snd (sections b)) as [|y m] eqn:B; [inversion K; subst; exists s; now rewrite app_nil_r|].
    apply joined_app in J as (s1 & g & s2 & -> & _ & _ & J2); [|destruct x, l; discriminate|discriminate].
    exists (s1 ++ g). rewrite (joined_unique _ _ _ K J2). now rewrite app_assoc.
Qed.
Lemma joined_left a b s : joined (snd (sections (a ++ b))) s -> forall t, joined (snd (sections a)) t -> exists post, s = t ++ post.
Proof.
  intros J t K. rewrite sections_app in J. destruct (snd (sections a)) as [|x l] eqn:A; cbn [snd] in J; [inversion K; now exists s|].
  destruct (snd (sections b)) as [|y m] eqn:B.
  - rewrite app_nil_r in J. apply joined_drop in J. exists []. rewrite app_nil_r. eapply joined_unique; eauto.
  - apply joined_app in J as (s1 & g & s2 & -> & J1 & _ & _); [|destruct x, l; discriminate|discriminate].
    apply joined_drop in J1. exists (g ++ s2). now rewrite (joined_unique _ _ _ K J1).
Qed.
Lemma joined_some l : exists s, joined l s.
Proof. exists (match l with [] => [] | _ => concat (interleave l) end). destruct l; [constructor|]. apply interleave_joined. Qed.
Lemma joined_infix a m b s t : joined (snd (sections (a ++ m ++ b))) s -> joined (snd (sections m)) t -> exists pre post, s = pre ++ t ++ post.
Proof.
  intros J K. destruct (joined_some (snd (sections (m ++ b)))) as (u & U).
  destruct (joined_right _ _ _ J u U) as (pre & ->). destruct (joined_left _ _ _ U t K) as (post & ->). now exists pre, post.
Qed.

Lemma within_layout cs d e : within d e -> exists a b, layout cs e = a ++ layout cs d ++ b.
Proof.
  induction 1 as [e|d n a kids I W (p & q & E)]; [exists [], []; now rewrite app_nil_r|].
  assert (X : exists u v, child_layout cs a kids = u ++ layout cs n ++ v).
  { clear - I. induction kids as [|k r IH]; [destruct I|]. cbn [child_layout]. destruct I as [->|I].
    - exists []. eexists. reflexivity.
    - destruct (IH I) as (u & v & ->). match goal with |- context [layout cs k ++ ?w ++ u ++ _] => exists (layout cs k ++ w ++ u), v end. now rewrite !app_assoc. }
  destruct X as (u & v & X). rewrite layout_eq, X, E. match goal with |- exists _ _, ?w ++ _ ++ ?z = _ => exists (w ++ u ++ p), (q ++ v ++ z) end. now rewrite !app_assoc.
Qed.
Lemma within_origins d e : within d e -> has_origins e -> has_origins d.
Proof.
  induction 1 as [e|d n a kids I W IH]; [auto|]. intros H. apply IH. apply has_origins_eq in H as [_ H].
  clear - I H. induction kids as [|k r IHk]; [destruct I|]. destruct H as [H1 H2]. destruct I as [->|I]; auto.
Qed.
Lemma within_texts d e t : within d e -> In t (texts d) -> In t (texts e).
Proof.
  intros W I. destruct (within_layout concat_default d e W) as (a & b & E). rewrite <- (layout_texts concat_default) in *. rewrite E, !text_items_app, !in_app_iff. auto.
Qed.
Lemma written_texts cs e s : write cs e = Ok s -> has_origins e -> exists ts, Forall2 is_text (texts e) ts.
Proof.
  intros W O. destruct (points_repr cs e O) as (ps & PS & PR & _). unfold write in W. rewrite PS in W. cbn [bindr] in W.
  rewrite <- (layout_texts cs e), <- (repr_texts _ _ PR). destruct (fragments ps) as [fs|] eqn:F; [|discriminate]. clear - F.
  revert fs F. induction ps as [|p ps IH]; intros fs F; [exists []; constructor|]. cbn [fragments] in F.
  destruct (p_text p) as [t|] eqn:T; [|discriminate]. cbn [bindr] in F. destruct (fragments ps) as [gs|]; [|discriminate].
  destruct (IH gs eq_refl) as (ts & X). exists (t :: ts). cbn [map]. constructor; [exact T|exact X].
Qed.

(** When a tree can be written, every node in it can be written, and its text is found unchanged in the text of the tree. *)
Theorem C143_part : forall cs d e s, has_origins e -> within d e -> write cs e = Ok s ->
  exists pre t post, write cs d = Ok t /\ s = pre ++ t ++ post.
Proof.
  intros cs d e s O W WS. assert (OD := within_origins d e W O).
  destruct (written_texts cs e s WS O) as (ts & F).
  destruct (write_spec cs e ts O F) as (s' & WS' & J & _). rewrite WS in WS'. injection WS' as <-.
  assert (FD : exists us, Forall2 is_text (texts d) us).
  { assert (A : forall t, In t (texts d) -> exists u, t = Ok u).
    { intros t I. apply (within_texts d e t W) in I. clear - F I. induction F as [|x y l m X F IH]; [destruct I|]. destruct I as [<-|I]; [exists y; exact X|auto]. }
    revert A. generalize (texts d). induction l as [|x l IH]; intros A; [exists []; constructor|].
    destruct (A x (or_introl eq_refl)) as (u & ->). destruct IH as (us & U); [intros t I; apply A; now right|]. exists (u :: us). constructor; [reflexivity|exact U]. }
  destruct FD as (us & FD). destruct (write_spec cs d us OD FD) as (t & WD & K & _).
  destruct (within_layout cs d e W) as (a & b & E). rewrite E in J. destruct (joined_infix _ _ _ _ _ J K) as (pre & post & ->).
  exists pre, t, post. auto.
Qed.
Print Assumptions C143_part.

Lemma joined_both a b s t u : joined (snd (sections (a ++ b))) s -> joined (snd (sections a)) t -> joined (snd (sections b)) u -> exists g, s = t ++ g ++ u.
Proof.
  intros J K L. rewrite sections_app in J. destruct (snd (sections a)) as [|x l] eqn:A; cbn [snd] in J.
  - inversion K. exists []. cbn. eapply joined_unique; eauto.
  - destruct (snd (sections b)) as [|y m] eqn:B.
    + inversion L. rewrite app_nil_r in J. apply joined_drop in J. exists []. cbn. rewrite app_nil_r. eapply joined_unique; eauto.
    + apply joined_app in J as (s1 & g & s2 & -> & J1 & _ & J2); [|destruct x, l; discriminate|discriminate].
      apply joined_drop in J1. exists g. now rewrite (joined_unique _ _ _ K J1), (joined_unique _ _ _ L J2).
Qed.
Lemma child_layout_app cs a l1 n l2 : exists u v, child_layout cs a (l1 ++ n :: l2) = u ++ layout cs n ++ v ++ child_layout cs a l2.
Proof.
  induction l1 as [|k r (u & v & IH)]; cbn [app child_layout].
  - exists []. eexists. reflexivity.
  - rewrite IH. match goal with |- context [layout cs k ++ ?w ++ u ++ _] => exists (layout cs k ++ w ++ u), v end. now rewrite !app_assoc.
Qed.
Lemma part_of cs d e s : has_origins e -> within d e -> write cs e = Ok s -> exists t, write cs d = Ok t /\ joined (snd (sections (layout cs d))) t.
Proof.
  intros O W WS. destruct (C143_part cs d e s O W WS) as (_ & t & _ & WD & _). assert (OD := within_origins d e W O).
  destruct (written_texts cs d t WD OD) as (ts & F). destruct (write_spec cs d ts OD F) as (t' & W' & J & _).
  rewrite WD in W'. injection W' as <-. eauto.
Qed.

(** The texts of two children are there one after the other, and do not overlap. *)
Theorem C143_siblings : forall cs a l1 n l2 m l3 s, let e := E a (l1 ++ n :: l2 ++ m :: l3) in has_origins e -> write cs e = Ok s ->
  exists pre t mid u post, write cs n = Ok t /\ write cs m = Ok u /\ s = pre ++ t ++ mid ++ u ++ post.
Proof.
  intros cs a l1 n l2 m l3 s e O WS.
  assert (WN : within n e) by (eapply within_child; [apply in_or_app; right; now left|constructor]).
  assert (WM : within m e) by (eapply within_child; [apply in_or_app; right; right; apply in_or_app; right; now left|constructor]).
  destruct (part_of cs n e s O WN WS) as (t & T & JT). destruct (part_of cs m e s O WM WS) as (u & U & JU). destruct (part_of cs e e s O (within_self e) WS) as (s' & S & J).
  rewrite WS in S. injection S as <-. unfold e in J. rewrite layout_eq in J.
  destruct (child_layout_app cs a l1 n (l2 ++ m :: l3)) as (p & q & X). destruct (child_layout_app cs a l2 m l3) as (p' & q' & Y). rewrite X, Y in J.
  match type of J with joined (snd (sections (?h ++ (p ++ _ ++ q ++ p' ++ _ ++ ?r) ++ ?z))) _ =>
    assert (EQ : h ++ (p ++ layout cs n ++ q ++ p' ++ layout cs m ++ r) ++ z = (h ++ p) ++ layout cs n ++ ((q ++ p') ++ layout cs m ++ (r ++ z))) by (now rewrite <- !app_assoc);
    rewrite EQ in J; set (rest := (q ++ p') ++ layout cs m ++ (r ++ z)) in * end.
  destruct (joined_some (snd (sections rest))) as (v & V). destruct (joined_some (snd (sections (layout cs n ++ rest)))) as (w & W).
  destruct (joined_right _ _ _ J w W) as (pre & ->). destruct (joined_both _ _ _ _ _ W JT V) as (g & ->). unfold rest in V. destruct (joined_infix _ _ _ _ _ V JU) as (y & post & ->).
  exists pre, t, (g ++ y), u, post. split; [exact T|]. split; [exact U|]. now rewrite <- !app_assoc.
Qed.
Print Assumptions C143_siblings.

(** The list with two notes in a larger list; it asks for spaces around it that are not part of its own text. *)
Example C143_witness :
  let note := fun s => leaf 1 s " "%string " "%string in
  let block := fun kids => E (Attrs Block 0 (Ok (txt "{")) (txt "}") None None false false (txt "  ") (txt " ") (txt " ") (txt " ") (txt "  ")) kids in
  let inner := block [note "c"%string; note "d"%string] in let outer := block [note "a"%string; inner; note "b"%string] in
  has_origins outer /\ within inner outer /\ write concat_default inner = Ok (txt "{ c d }") /\ write concat_default outer = Ok (txt "{ a  { c d }  b }").
Proof.
  cbv zeta. split; [cbn; repeat split; right; discriminate|]. split; [|split; reflexivity].
  eapply within_child; [right; left; reflexivity|]. constructor.
Qed.
