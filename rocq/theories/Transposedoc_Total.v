(** Property C126: when transposing a document succeeds. *)
From Coq Require Import String Ascii List ZArith QArith Lqa Bool Lia.
From Verif Require Import Base Pitch_Model Pitch_Spec Pitch_Proofs Pitch_Props Transpose_Model Transpose_Spec Transpose_Proofs.
From Verif Require Import Transpose_Props Transpose_Chain Transposedoc_Model Transposedoc_Spec Transposedoc_Proofs Transposedoc_Props.
Import ListNotations.
Open Scope Z_scope.

(** Specification: every language has a name for what the transposer makes of
    its names. *)
Definition names_suffice (T : tables) (t : transposer) : Prop :=
  forall l tb name o n a o' q, lang_table T l = Ok tb -> In (name, (o, n, a)) tb ->
    transpose t (Pitch o' n a) = Ok q -> exists name' o'', names_pitch tb name' o'' (note q) (alter q).

(** A number of semitones (in whole tones). *)
Definition semitones (x : Q) : Prop := exists z : Z, (x == z # 2)%Q.

(** A language with a name for each note, natural, sharp, flat and with double
    sharp and flat, and names for these only. *)
Definition semitone_language (tb : table) : Prop :=
  (forall name o n a, In (name, (o, n, a)) tb -> 0 <= n <= 6 /\ semitones a) /\
  (forall n z, 0 <= n <= 6 -> -2 <= z <= 2 -> exists name o, names_pitch tb name o n (z # 2)).

Section Total.
  Variables (T : tables) (t : transposer) (s : list Q) (fa : bool).
  Hypothesis SC : tr_scale t = Some s.
  Hypothesis GS : good_scale s.

  (** ** No other exception than KeyError *)

  Definition key_error {A} (r : res A) : Prop := forall e, r = Err e -> e = KeyError.

  Lemma ke_ok {A} (a : A) : key_error (Ok a).
  Proof. discriminate. Qed.
  Lemma ke_bind {A B} (r : res A) (f : A -> res B) : key_error r -> (forall a, r = Ok a -> key_error (f a)) -> key_error (bindr r f).
  Proof. intros H1 H2 e. destruct r as [a|e']; cbn [bindr]; intros E; [exact (H2 a eq_refl e E)|]. injection E as <-. now apply H1. Qed.

  Lemma ke_table l : key_error (lang_table T l).
  Proof. unfold lang_table. intros e. destruct (dget _ _ _) as [[? ?]|]; [discriminate|]. now intros [= <-]. Qed.
  Lemma ke_language P l : key_error (language_set T P l).
  Proof. unfold language_set. intros e. destruct (dget _ _ _); [discriminate|]. now intros [= <-]. Qed.
  Lemma ke_name P h : key_error (pitch_of_name T P h).
  Proof.
    apply ke_bind; [apply ke_table|]. intros tb _ e. destruct (dget _ _ _) as [[[? ?] ?]|]; [discriminate|]. now intros [= <-].
  Qed.
  Lemma ke_read P n : key_error (read_node T P n).
  Proof. apply ke_bind; [apply ke_name|]. intros. apply ke_ok. Qed.
  Lemma ke_transpose p : key_error (transpose t p).
  Proof. destruct (transpose_spec t s p SC GS) as (q & -> & _). apply ke_ok. Qed.
  Lemma ke_write P n p : key_error (of_pair (write_node T P n p)).
  Proof.
    intros e. destruct (write_node T P n p) as [m [[]|e']] eqn:E; cbn [of_pair bindr]; [discriminate|]. intros [= <-].
    apply write_fail in E. apply E.
  Qed.
  Lemma ke_process P n w f : (forall p, key_error (f p)) -> key_error (of_pair (process T P n w f)).
  Proof.
    intros H e. unfold process. pose proof (ke_read P n) as R. destruct (read_node T P n) as [p|e'].
    2:{ cbn [of_pair bindr]. intros [= <-]. now apply R. }
    specialize (H p). destruct (f p) as [q|e']. 2:{ cbn [of_pair bindr]. intros [= <-]. now apply H. }
    destruct w; [|discriminate]. destruct (write_node T P n q) as [m [[]|e']] eqn:E; cbn [of_pair bindr]; [discriminate|]. intros [= <-].
    apply write_fail in E. apply E.
  Qed.
  Lemma ke_pitch P adj n : key_error (transpose_pitch T P t adj n).
  Proof.
    apply ke_bind; [|intros; apply ke_ok]. apply ke_process. intros p. apply ke_bind; [apply ke_transpose|]. intros. apply ke_ok.
  Qed.
  Lemma ke_note P n st : key_error (transpose_note T P t n st).
  Proof.
    unfold transpose_note. apply ke_bind; [apply ke_read|]. intros p _. cbv zeta. destruct (negb (r_writable n)); [apply ke_ok|].
    apply ke_bind; [apply ke_transpose|]. intros q _. apply ke_bind; [apply ke_write|]. intros. apply ke_ok.
  Qed.
  Lemma ke_on_note P b n : key_error (on_note T t P b n).
  Proof.
    destruct b; cbn [on_note].
    - apply ke_bind; [apply ke_pitch|]. intros. apply ke_ok.
    - apply ke_bind; [|intros; apply ke_ok]. apply ke_process. intros p. apply ke_bind; [apply ke_transpose|]. intros. apply ke_ok.
    - apply ke_bind; [apply ke_note|]. intros [? ?] _. apply ke_ok.
    - apply ke_bind; [apply ke_note|]. intros [? ?] _. apply ke_ok.
    - apply ke_bind; [apply ke_read|]. intros p _. destruct (r_writable n); [|apply ke_ok].
      apply ke_bind; [apply ke_transpose|]. intros q _. apply ke_bind; [apply ke_write|]. intros. apply ke_ok.
  Qed.

  Definition ke_tree (x : mtree) : Prop := forall rm b P, key_error (walk T t fa rm b P x).
  Lemma ke_walks l : Forall ke_tree l -> forall rm b P, key_error (walks (walk T t fa) rm b P l).
  Proof.
    induction 1 as [|x r H _ IH]; intros rm b P; cbn [walks]; [apply ke_ok|].
    apply ke_bind; [apply H|]. intros [[x' b1] P1] _. apply ke_bind; [apply IH|]. intros [[r' b2] P2] _. apply ke_ok.
  Qed.
  Ltac kw G := apply ke_bind; [apply (ke_walks _ G)|]; intros [[? ?] ?] _.

  Lemma ke_rel_lead ch : Forall ke_tree ch -> forall P, key_error (rel_lead T t fa P ch).
  Proof.
    induction 1 as [|x r G GR IH]; intros P; [apply ke_ok|].
    destruct x as [n c| | | | | | | | | | |]; cbn [rel_lead]; try (kw (Forall_cons _ G GR); apply ke_ok).
    - destruct (existsb _ r); [|kw (Forall_cons _ G GR); apply ke_ok].
      apply ke_bind; [apply ke_read|]. intros p _. destruct (r_writable n); [|kw GR; apply ke_ok].
      apply ke_bind; [apply ke_transpose|]. intros q _. apply ke_bind; [apply ke_write|]. intros m _. cbv zeta. kw GR. apply ke_ok.
    - apply ke_bind; [apply IH|]. intros [? ?] _. apply ke_ok.
  Qed.
  Lemma ke_fix_lead ch : Forall ke_tree ch -> forall P, key_error (fix_lead T t fa P ch).
  Proof.
    induction 1 as [|x r G GR IH]; intros P; [apply ke_ok|].
    destruct x as [n c| | | | | | | | | | |]; cbn [fix_lead]; try (kw GR; apply ke_ok).
    - destruct (r_writable n); [|kw GR; apply ke_ok]. apply ke_bind; [apply ke_pitch|]. intros m _. kw GR. apply ke_ok.
    - apply ke_bind; [apply IH|]. intros [? ?] _. apply ke_ok.
  Qed.
  Lemma ke_walk x : ke_tree x.
  Proof.
    induction x as [n ch G|ch G|ch G|ch G|ch G|ch G|ch|ch G|ch G|l| |ch G] using mtree_rect'; intros rm b P.
    - cbn [walk]. apply ke_bind; [apply ke_on_note|]. intros [? ?] _. kw G. apply ke_ok.
    - cbn [walk]. kw G. apply ke_ok.
    - cbn [walk]. kw G. apply ke_ok.
    - rewrite walk_relative. apply ke_bind; [now apply ke_rel_lead|]. intros [? ?] _. apply ke_ok.
    - rewrite walk_fixed. apply ke_bind; [now apply ke_fix_lead|]. intros [? ?] _. apply ke_ok.
    - cbn [walk]. destruct ch as [|y [|z rest]]; [apply ke_ok| |]; inversion G as [|? ? G0 G1]; subst.
      + apply ke_bind; [apply G0|]. intros [[? ?] ?] _. apply ke_ok.
      + inversion G1 as [|? ? G2 GR]; subst. apply ke_bind; [apply G0|]. intros [[? ?] ?] _.
        apply ke_bind; [apply G2|]. intros [[? ?] ?] _. kw GR. apply ke_ok.
    - apply ke_ok.
    - cbn [walk]. destruct rm; [destruct b|]; kw G; apply ke_ok.
    - cbn [walk]. destruct rm; [destruct b|]; kw G; apply ke_ok.
    - cbn [walk]. apply ke_bind; [apply ke_language|]. intros. apply ke_ok.
    - apply ke_ok.
    - cbn [walk]. kw G. apply ke_ok.
  Qed.

  (** ** Success *)
  Hypothesis NS : names_suffice T t.

  Lemma named_ok P h q0 p tb : pitch_of_name T P h = Ok q0 -> lang_table T (language P) = Ok tb ->
    note p = note q0 -> alter p = alter q0 ->
    exists q, transpose t p = Ok q /\ exists name o, names_pitch tb name o (note q) (alter q).
  Proof.
    intros H TL E1 E2. destruct (pitch_of_name_in _ _ _ _ H) as (tb' & TL' & I). rewrite TL in TL'. injection TL' as <-.
    destruct (transpose_spec t s p SC GS) as (q & TQ & _). exists q. split; [exact TQ|].
    destruct p as [o' n a]. cbn [note alter] in *. subst. eapply NS; eassumption.
  Qed.

  Definition known (P : processor) (n : pnode) : Prop := exists q, pitch_of_name T P (head n) = Ok q.

  Lemma known_table P n : known P n -> exists tb, lang_table T (language P) = Ok tb.
  Proof. intros (q & H). destruct (pitch_of_name_in _ _ _ _ H) as (tb & TL & _). now exists tb. Qed.

  Lemma process_known P n w g : known P n -> (forall q, note (g q) = note q /\ alter (g q) = alter q) ->
    forall h : pitch -> pitch -> pitch, (forall p q, note (h p q) = note q /\ alter (h p q) = alter q) ->
    exists m, of_pair (process T P n w (fun p => let! q := transpose t p in Ok (h p q))) = Ok m.
  Proof.
    intros K _ h H. destruct (known_table _ _ K) as (tb & TL). destruct K as (q0 & K).
    unfold process, read_node. rewrite K. cbn [bindr].
    set (p := Pitch (octave q0 + node_octave n) (note q0) (alter q0)).
    destruct (named_ok P _ _ p tb K TL eq_refl eq_refl) as (q & -> & NM). cbn [bindr]. destruct w.
    - destruct (H p q) as [H1 H2]. rewrite <- H1, <- H2 in NM.
      destruct (write_succeeds T P n (h p q) _ tb K TL NM) as (n' & ->). eexists. reflexivity.
    - eexists. reflexivity.
  Qed.

  Lemma pitch_known P n adj : known P (r_node n) -> (forall q, note (adj q) = note q /\ alter (adj q) = alter q) ->
    exists m, transpose_pitch T P t adj n = Ok m.
  Proof.
    intros K H. destruct (process_known P (r_node n) (r_writable n) adj K H (fun _ => adj) (fun _ => H)) as (m & E).
    unfold transpose_pitch. rewrite E. eexists. reflexivity.
  Qed.

  Lemma note_known P n st : known P (r_node n) -> exists m s', transpose_note T P t n st = Ok (m, s').
  Proof.
    intros K. destruct (known_table _ _ K) as (tb & TL). destruct K as (q0 & K).
    unfold transpose_note, read_node. rewrite K. cbn [bindr]. cbv zeta. destruct (r_writable n); cbn [negb]; [|do 2 eexists; reflexivity].
    set (p := make_absolute _ _ _ _).
    destruct (named_ok P _ _ p tb K TL eq_refl eq_refl) as (q & -> & NM). cbn [bindr].
    set (nd := match oct_check (r_node n) with Some _ => _ | None => _ end).
    assert (HN : head nd = head (r_node n)) by (unfold nd; destruct (oct_check (r_node n)); reflexivity).
    rewrite <- HN in K. match goal with |- context [write_node T P nd ?r] => destruct (write_succeeds T P nd r q0 tb K TL NM) as (n' & ->) end.
    do 2 eexists. reflexivity.
  Qed.

  Lemma on_note_known P b n : known P (r_node n) -> exists m b', on_note T t P b n = Ok (m, b').
  Proof.
    intros K. destruct b as [k| |st|st f|st]; cbn [on_note].
    - destruct (pitch_known P n (lower_octave k) K) as (m & ->); [now split|]. do 2 eexists. reflexivity.
    - destruct (process_known P (r_node n) (r_writable n) (fun q => q) K (fun _ => conj eq_refl eq_refl)
        (fun p q => with_octave q (octave p)) (fun _ _ => conj eq_refl eq_refl)) as (m & ->). do 2 eexists. reflexivity.
    - destruct (note_known P n st K) as (m & s' & ->). do 2 eexists. reflexivity.
    - destruct (note_known P n st K) as (m & s' & ->). do 2 eexists. reflexivity.
    - destruct (known_table _ _ K) as (tb & TL). destruct K as (q0 & K). unfold read_node. rewrite K. cbn [bindr].
      destruct (r_writable n); [|do 2 eexists; reflexivity].
      set (p := Pitch _ _ _). destruct (named_ok P _ _ p tb K TL eq_refl eq_refl) as (q & -> & NM). cbn [bindr].
      destruct (write_succeeds T P (r_node n) q q0 tb K TL NM) as (n' & ->). do 2 eexists. reflexivity.
  Qed.

  Lemma read_known P n p : read_node T P n = Ok p -> known P n.
  Proof. unfold read_node, known. destruct (pitch_of_name T P (head n)) as [q|]; [|discriminate]. intros _. now exists q. Qed.

  Lemma read_pitch_known d P pl n h pl1 : read_pitch T d P pl n = Ok (h, pl1) -> known P n.
  Proof.
    intros H. destruct pl; cbn [read_pitch] in H;
      try (destruct (read_node T P n) as [p|] eqn:R; [exact (read_known _ _ _ R)|discriminate]);
      (unfold rel_pitch in H; unfold known; destruct (pitch_of_name T P (head n)) as [q|]; [now exists q|discriminate]).
  Qed.

  Definition succeeds (x : mtree) : Prop := forall inrel rm b P d pl hs pl1 P1, usual inrel x = true ->
    read T s fa d pl P x = Ok (hs, pl1, P1) -> exists x' b1, walk T t fa rm b P x = Ok (x', b1, P1).
  Lemma succeeds_all l : Forall succeeds l -> forall inrel rm b P d pl hs pl1 P1, forallb (usual inrel) l = true ->
    read_all (read T s fa) d pl P l = Ok (hs, pl1, P1) -> exists l' b1, walks (walk T t fa) rm b P l = Ok (l', b1, P1).
  Proof.
    induction 1 as [|x r H _ IH]; intros inrel rm b P d pl hs pl1 P1 W; cbn [walks read_all].
    - intros [= _ _ <-]. do 2 eexists. reflexivity.
    - cbn [forallb] in W. apply andb_prop in W. destruct W as [W1 W2].
      destruct (read T s fa d pl P x) as [[[h1 pl2] P2]|] eqn:E; [|discriminate]. cbn [bindr]. fold (read_all (read T s fa)).
      destruct (read_all (read T s fa) d pl2 P2 r) as [[[h2 pl3] P3]|] eqn:E2; [|discriminate]. cbn [bindr]. intros [= _ _ <-].
      destruct (H inrel rm b _ _ _ _ _ _ W1 E) as (x' & b1 & ->). cbn [bindr]. fold (walks (walk T t fa)).
      destruct (IH inrel rm b1 _ _ _ _ _ _ W2 E2) as (r' & b2 & ->). do 2 eexists. reflexivity.
  Qed.
  Ltac inner E := match goal with |- (let! _ := ?e in _) = _ -> _ => destruct e as [[[? ?] ?]|] eqn:E; [|discriminate]; cbn [bindr] end.

  Lemma succeeds_rel ch : Forall succeeds ch -> forall P d hs P1, forallb (usual true) ch = true ->
    rel_read_lead T s fa d P ch = Ok (hs, P1) -> exists ch', rel_lead T t fa P ch = Ok (ch', P1).
  Proof.
    induction 1 as [|x r G GR IH]; intros P d hs P1 W.
    - cbn. intros [= _ <-]. now eexists.
    - pose proof (succeeds_all _ (Forall_cons _ G GR)) as SA. pose proof (succeeds_all _ GR) as SR.
      assert (PL : (let! (hs, _, P') := read_all (read T s fa) d (start_place fa) P (x :: r) in Ok (hs, P')) = Ok (hs, P1) ->
        exists ch', (let! (l', _, P') := walks (walk T t fa) true (start_body fa) P (x :: r) in Ok (l', P')) = Ok (ch', P1)).
      { destruct (read_all (read T s fa) d (start_place fa) P (x :: r)) as [[[h2 pl3] P3]|] eqn:E; [|discriminate]. cbn [bindr]. intros [= _ <-].
        destruct (SA true true (start_body fa) _ _ _ _ _ _ W E) as (l' & b1 & ->). eexists. reflexivity. }
      cbn [forallb] in W. apply andb_prop in W. destruct W as [W1 W2].
      destruct x as [n c| | | | | | | | | | |]; try exact PL.
      + cbn [rel_lead rel_read_lead]. rewrite existsb_comment. destruct (forallb is_comment r); cbn [negb]; [exact PL|].
        destruct (read_node T P (r_node n)) as [p|] eqn:R; [|discriminate]. cbn [bindr].
        destruct (read_all (read T s fa) d (PRel p) P r) as [[[h2 pl3] P3]|] eqn:E; [|discriminate]. cbn [bindr]. intros [= _ <-].
        destruct (r_writable n).
        * pose proof (read_known _ _ _ R) as K. destruct (known_table _ _ K) as (tb & TL). destruct K as (q0 & K).
          assert (EP : note p = note q0 /\ alter p = alter q0).
          { unfold read_node in R. rewrite K in R. cbn [bindr] in R. injection R as <-. now split. }
          destruct (named_ok P _ _ p tb K TL (proj1 EP) (proj2 EP)) as (q & -> & NM). cbn [bindr].
          destruct (write_succeeds T P (r_node n) q q0 tb K TL NM) as (n' & ->). cbn [of_pair bindr]. cbv zeta.
          match goal with |- context [walks (walk T t fa) true ?b P r] => destruct (SR true true b _ _ _ _ _ _ W2 E) as (l' & b1 & ->) end.
          eexists. reflexivity.
        * destruct (SR true true (BRel (p, None)) _ _ _ _ _ _ W2 E) as (l' & b1 & ->). eexists. reflexivity.
      + cbn [rel_lead rel_read_lead]. intros H. destruct (IH _ _ _ _ W2 H) as (ch' & E). fold (rel_lead T t fa P). rewrite E. eexists. reflexivity.
  Qed.

  Lemma succeeds_fix ch : Forall succeeds ch -> forall P d hs P1, reference_first ch = true -> forallb (usual false) ch = true ->
    fix_read_lead T s fa d P ch = Ok (hs, P1) -> exists ch', fix_lead T t fa P ch = Ok (ch', P1).
  Proof.
    induction 1 as [|x r G GR IH]; intros P d hs P1 RF W; [discriminate|].
    cbn [forallb] in W. apply andb_prop in W. destruct W as [W1 W2].
    destruct x as [n c| | | | | | | | | | |]; try discriminate.
    - cbn [fix_lead fix_read_lead]. destruct (read_node T P (r_node n)) as [p|] eqn:R; [|discriminate]. cbn [bindr].
      destruct (read_all (read T s fa) d (PFix p) P r) as [[[h2 pl3] P3]|] eqn:E; [|discriminate]. cbn [bindr]. intros [= _ <-].
      destruct (r_writable n).
      + destruct (pitch_known P n (fun p => p) (read_known _ _ _ R)) as (m & ->); [now split|]. cbn [bindr].
        destruct (succeeds_all _ GR false false (BPlain (tr_octave t)) _ _ _ _ _ _ W2 E) as (l' & b1 & ->). eexists. reflexivity.
      + destruct (succeeds_all _ GR false false (BPlain 0) _ _ _ _ _ _ W2 E) as (l' & b1 & ->). eexists. reflexivity.
    - cbn [fix_lead fix_read_lead reference_first] in *. intros H. destruct (IH _ _ _ _ RF W2 H) as (ch' & E). fold (fix_lead T t fa P). rewrite E. eexists. reflexivity.
  Qed.

  Lemma walk_succeeds x : succeeds x.
  Proof.
    induction x as [n ch G|ch G|ch G|ch G|ch G|ch G|ch|ch G|ch G|l| |ch G] using mtree_rect'; intros inrel rm b P d pl hs pl1 P1 W.
    - cbn [walk read usual] in *. destruct (read_pitch T d P pl (r_node n)) as [[h pl2]|] eqn:RP; [|discriminate]. cbn [bindr].
      inner E. intros [= _ _ <-]. destruct (on_note_known P b n (read_pitch_known _ _ _ _ _ _ RP)) as (m & b' & ->). cbn [bindr].
      destruct (succeeds_all _ G false false (BPlain 0) _ _ _ _ _ _ W E) as (l' & b1 & ->). do 2 eexists. reflexivity.
    - cbn [walk read usual] in *. inner E. intros [= _ _ <-].
      destruct (succeeds_all _ G false false BKeep _ _ _ _ _ _ W E) as (l' & b1 & ->). do 2 eexists. reflexivity.
    - cbn [walk read usual] in *. inner E. intros [= _ _ <-].
      destruct (succeeds_all _ G false false (BPlain 0) _ _ _ _ _ _ W E) as (l' & b1 & ->). do 2 eexists. reflexivity.
    - rewrite walk_relative, read_relative. cbn [usual] in W.
      destruct (rel_read_lead T s fa d P ch) as [[h P2]|] eqn:E; [|discriminate]. cbn [bindr]. intros [= _ _ <-].
      destruct (succeeds_rel _ G _ _ _ _ W E) as (ch' & ->). do 2 eexists. reflexivity.
    - rewrite walk_fixed, read_fixed. cbn [usual] in W. apply andb_prop in W. destruct W as [RF W].
      destruct (fix_read_lead T s fa d P ch) as [[h P2]|] eqn:E; [|discriminate]. cbn [bindr]. intros [= _ _ <-].
      destruct (succeeds_fix _ G _ _ _ _ RF W E) as (ch' & ->). do 2 eexists. reflexivity.
    - cbn [usual] in W. apply andb_prop in W. destruct W as [W W3]. apply andb_prop in W. destruct W as [W1 W2].
      destruct ch as [|[n c| | | | | | | | | | |] ch]; try discriminate. destruct c; [|discriminate].
      destruct ch as [|[m c| | | | | | | | | | |] rest]; try discriminate. destruct c; [|discriminate].
      cbn [forallb usual] in W3. cbn [andb] in W3.
      inversion G as [|? ? _ G1]; subst. inversion G1 as [|? ? _ GR]; subst.
      cbn [read]. destruct (read_node T P (r_node n)) as [p|] eqn:R1; [|discriminate]. cbn [bindr].
      destruct (read_node T P (r_node m)) as [u|] eqn:R2; [|discriminate]. cbn [bindr].
      match goal with |- (let! _ := (let! _ := ?e in _) in _) = _ -> _ => destruct e as [[[h2 pl3] P3]|] eqn:E; [|discriminate]; cbn [bindr] end.
      intros [= _ _ <-]. cbn [walk on_note walks].
      destruct (pitch_known P n (lower_octave (tr_octave t)) (read_known _ _ _ R1)) as (n' & ->); [now split|]. cbn [bindr].
      destruct (pitch_known P m (lower_octave (tr_octave t)) (read_known _ _ _ R2)) as (m' & ->); [now split|]. cbn [bindr].
      destruct (succeeds_all _ GR inrel false b _ _ _ _ _ _ W3 E) as (l' & b1 & ->). do 2 eexists. reflexivity.
    - cbn [walk read]. intros [= _ _ <-]. do 2 eexists. reflexivity.
    - cbn [walk read usual] in *. intros H.
      assert (E : exists h pl0 pl2, read_all (read T s fa) d pl0 P ch = Ok (h, pl2, P1)).
      { destruct pl; try (exists hs; do 2 eexists; exact H). revert H. inner E. intros [= _ _ <-]. do 3 eexists. exact E. }
      destruct E as (h & pl0 & pl2 & E). destruct rm; [destruct b|];
        (match goal with |- context [walks (walk T t fa) ?r ?b P ch] => destruct (succeeds_all _ G inrel r b _ _ _ _ _ _ W E) as (l' & b1 & ->) end;
         do 2 eexists; reflexivity).
    - cbn [walk read usual] in *. intros H.
      assert (E : exists h pl0 pl2, read_all (read T s fa) d pl0 P ch = Ok (h, pl2, P1)).
      { destruct pl; try (exists hs; do 2 eexists; exact H). revert H. inner E. intros [= _ _ <-]. do 3 eexists. exact E. }
      destruct E as (h & pl0 & pl2 & E). destruct rm; [destruct b|];
        (match goal with |- context [walks (walk T t fa) ?r ?b P ch] => destruct (succeeds_all _ G inrel r b _ _ _ _ _ _ W E) as (l' & b1 & ->) end;
         do 2 eexists; reflexivity).
    - cbn [walk read]. destruct (language_set T P l) as [P2|]; [|discriminate]. cbn [bindr]. intros [= _ _ <-]. do 2 eexists. reflexivity.
    - cbn [walk read]. intros [= _ _ <-]. do 2 eexists. reflexivity.
    - cbn [walk read usual] in *. intros E. destruct (succeeds_all _ G inrel rm b _ _ _ _ _ _ W E) as (l' & b1 & ->). do 2 eexists. reflexivity.
  Qed.
End Total.

(** If something goes wrong, it is a KeyError: a name the language does not
    have, a language that does not exist. *)
Theorem C126_only_key_error : forall T t s fa P x e, tr_scale t = Some s -> good_scale s ->
  transpose_doc T t fa P x = Err e -> e = KeyError.
Proof.
  intros T t s fa P x e SC GS. unfold transpose_doc.
  apply (ke_bind (walk T t fa false (BPlain 0) P x) (fun '(x', _, _) => Ok x')).
  - eapply ke_walk; eassumption.
  - intros [[x' b1] P1] _. apply ke_ok.
Qed.
Print Assumptions C126_only_key_error.

(** A document that can be read, in languages that have the names, can be
    transposed: whatever the range. *)
Theorem C126_succeeds : forall T t s fa P x hs, tr_scale t = Some s -> good_scale s -> names_suffice T t ->
  usual false x = true -> meaning T s fa P x = Ok hs -> exists x', transpose_doc T t fa P x = Ok x'.
Proof.
  intros T t s fa P x hs SC GS NS W. unfold meaning, transpose_doc.
  destruct (read T s fa 0 PAbs P x) as [[[h pl] P1]|] eqn:E; [|discriminate]. intros _.
  destruct (walk_succeeds T t s fa SC GS NS x false false (BPlain 0) P _ _ _ _ _ W E) as (x' & b1 & ->). eexists. reflexivity.
Qed.
Print Assumptions C126_succeeds.

(** Languages with all the names for semitones have the names for every
    transposition by semitones. *)
Lemma semitones_add a b : semitones a -> semitones b -> semitones (a + b).
Proof. intros (x & X) (y & Y). exists (x + y). rewrite X, Y. unfold Qeq, Qplus. cbn. lia. Qed.
Lemma semitones_opp a : semitones a -> semitones (- a).
Proof. intros (x & X). exists (- x). rewrite X. unfold Qeq, Qopp. cbn. lia. Qed.
Lemma semitones_int z : semitones (inject_Z z).
Proof. exists (2 * z). unfold Qeq, inject_Z. cbn [Qnum Qden]. lia. Qed.

Theorem C126_semitones : forall T t s, tr_scale t = Some s -> good_scale s -> Forall semitones s -> semitones (tr_alter t) ->
  (forall l tb, lang_table T l = Ok tb -> semitone_language tb) -> names_suffice T t.
Proof.
  intros T t s SC GS FS ST SL l tb name o n a o' q TL I TQ. destruct (SL l tb TL) as [A B].
  destruct (A _ _ _ _ I) as [N SA].
  destruct (transpose_spec t s (Pitch o' n a) SC GS) as (q' & TQ' & (V & L1 & L2) & H & _).
  rewrite TQ in TQ'. injection TQ' as <-. unfold height in H. cbn [octave note alter] in H.
  assert (SN : forall k, semitones (nth k s 0%Q)).
  { intros k. destruct (nth_in_or_default k s 0%Q) as [X|X]; [rewrite Forall_forall in FS; now apply FS|]. rewrite X. apply (semitones_int 0). }
  assert (SQ : semitones (alter q)).
  { assert (E : (alter q == inject_Z (6 * o') + nth (Z.to_nat n) s 0 + a + interval t - (inject_Z (6 * octave q) + nth (Z.to_nat (note q)) s 0))%Q) by lra.
    assert (S1 : semitones (inject_Z (6 * o') + nth (Z.to_nat n) s 0 + a + interval t - (inject_Z (6 * octave q) + nth (Z.to_nat (note q)) s 0))%Q).
    { unfold interval, Qminus. repeat (apply semitones_add || apply semitones_opp || apply semitones_int || apply SN || assumption). }
    destruct S1 as (z & Z1). exists z. now rewrite E. }
  destruct SQ as (z & Z1). rewrite Z1 in L1, L2.
  assert (R : -2 <= z <= 2) by (unfold Qle in L1, L2; cbn in L1, L2; lia).
  destruct (B (note q) z V R) as (name' & o'' & a' & I' & E'). exists name', o'', a'. split; [exact I'|]. now rewrite E', Z1.
Qed.
Print Assumptions C126_semitones.

(** The 35 names of "nederlands" with sharps and flats. *)
Definition semitone_names : table :=
  flat_map (fun '(h, n) => map (fun '(sfx, a) => (h ++ txt sfx, (-1, n, a))%list)
    [(""%string, 0%Q); ("is"%string, 1#2); ("isis"%string, 1); ("es"%string, -1#2); ("eses"%string, -1)]%Q)
    [(txt "c", 0); (txt "d", 1); (txt "e", 2); (txt "f", 3); (txt "g", 4); (txt "a", 5); (txt "b", 6)].
Definition semitone_tables : tables := [(txt "nederlands", (0%nat, semitone_names))].

Lemma semitone_tables_complete : forall l tb, lang_table semitone_tables l = Ok tb -> semitone_language tb.
Proof.
  intros l tb H. unfold lang_table in H. destruct (dget str_eqb semitone_tables l) as [[k tb']|] eqn:E; [|discriminate].
  apply dget_str_in in E. destruct E as [E|[]]. injection E as _ _ <-. injection H as <-. split.
  - intros name o n a I. cbn in I.
    repeat destruct I as [I|I]; try contradiction; injection I as _ _ <- <-; (split; [lia|]);
      [exists 0|exists 1|exists 2|exists (-1)|exists (-2)|exists 0|exists 1|exists 2|exists (-1)|exists (-2)
      |exists 0|exists 1|exists 2|exists (-1)|exists (-2)|exists 0|exists 1|exists 2|exists (-1)|exists (-2)
      |exists 0|exists 1|exists 2|exists (-1)|exists (-2)|exists 0|exists 1|exists 2|exists (-1)|exists (-2)
      |exists 0|exists 1|exists 2|exists (-1)|exists (-2)]; reflexivity.
  - intros n z N Z1.
    assert (HN : n = 0 \/ n = 1 \/ n = 2 \/ n = 3 \/ n = 4 \/ n = 5 \/ n = 6) by lia.
    assert (HZ : z = -2 \/ z = -1 \/ z = 0 \/ z = 1 \/ z = 2) by lia.
    assert (G : exists x, In x semitone_names /\ snd (fst (snd x)) = n /\ (snd (snd x) == z # 2)%Q).
    { assert (F : (fun n z => existsb (fun x => (snd (fst (snd x)) =? n) && Qeq_bool (snd (snd x)) (z # 2)) semitone_names) n z = true).
      { repeat destruct HN as [->|HN]; try subst n; repeat destruct HZ as [->|HZ]; try subst z; reflexivity. }
      apply existsb_exists in F. destruct F as (x & I & F). apply andb_prop in F. destruct F as [F1 F2].
      exists x. split; [exact I|]. split; [now apply Z.eqb_eq|now apply Qeq_bool_eq]. }
    destruct G as ([name [[o n'] a']] & I & E1 & E2). cbn [fst snd] in E1, E2. subst n'. exists name, o, a'. now split.
Qed.

Example C126_witness : (* up a semitone, from c to cis *)
  let t := major_transposer c0 (Pitch (-1) 0 (1#2)) in
  tr_scale t = Some major_scale /\ good_scale major_scale /\ Forall semitones major_scale /\ semitones (tr_alter t) /\
  names_suffice semitone_tables t /\
  (exists hs, meaning semitone_tables major_scale true default_processor ex_doc = Ok hs /\ List.length hs = 11%nat) /\
  usual false ex_doc = true /\
  (* "cis" is not in the small table used elsewhere for all notes: KeyError *)
  transpose_doc ex_tables t true default_processor ex_doc = Err KeyError.
Proof.
  cbv zeta. assert (F : Forall semitones major_scale).
  { repeat constructor; [exists 0|exists 2|exists 4|exists 5|exists 7|exists 9|exists 11]; reflexivity. }
  assert (ST : semitones (tr_alter (major_transposer c0 (Pitch (-1) 0 (1#2))))) by (exists 1; vm_compute; reflexivity).
  split; [reflexivity|]. split; [exact major_good|]. split; [exact F|]. split; [exact ST|].
  split; [exact (C126_semitones semitone_tables (major_transposer c0 (Pitch (-1) 0 (1#2))) major_scale eq_refl major_good F ST semitone_tables_complete)|].
  split; [eexists; split; [vm_compute; reflexivity|reflexivity]|]. split; vm_compute; reflexivity.
Qed.
