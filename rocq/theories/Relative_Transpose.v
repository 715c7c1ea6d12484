(** Property C128: converting to absolute pitches and transposing can be done in
    either order. *)
From Coq Require Import String Ascii List ZArith QArith Lqa Bool Lia.
From Verif Require Import Base Pitch_Model Pitch_Spec Pitch_Proofs Transpose_Model Transpose_Spec Transpose_Proofs.
From Verif Require Import Transpose_Props Transposedoc_Model Transposedoc_Spec Transposedoc_Proofs Transposedoc_Props.
From Verif Require Import Relative_Model Relative_Spec Relative_Proofs Relative_Props.
Import ListNotations.
Local Open Scope string_scope. Local Open Scope list_scope.
Open Scope Z_scope.

(** ** Specification *)

(** The music that relative.py edits as a document that transpose.py edits; all
    of it is in the range.  Other nodes are here those whose pitches neither of
    them changes (\transposition, \stringTuning). *)
Definition note_tree (n : pnode) : mtree := MPitch (RNote n true) [].
Fixpoint tree (i : item) : mtree :=
  match i with
  | INote n => note_tree n
  | IChord c => MChord (map note_tree c)
  | ICheck n => MCheck [note_tree n]
  | IOpaque => MSkip []
  | IRelative s b => MRelative (match s with Some n => [note_tree n] | None => [] end ++ [tree b])
  | IList l => MOther (map tree l)
  end.

(** ** Proofs *)

Section Ind.
  Variable R : item -> Prop.
  Hypothesis Hn : forall n, R (INote n).
  Hypothesis Hc : forall c, R (IChord c).
  Hypothesis Hk : forall n, R (ICheck n).
  Hypothesis Ho : R IOpaque.
  Hypothesis Hr : forall s b, R b -> R (IRelative s b).
  Hypothesis Hl : forall l, Forall R l -> R (IList l).
  Fixpoint item_rect' (i : item) : R i :=
    match i with
    | INote n => Hn n
    | IChord c => Hc c
    | ICheck n => Hk n
    | IOpaque => Ho
    | IRelative s b => Hr s b (item_rect' b)
    | IList l => Hl l ((fix go l : Forall R l := match l with [] => Forall_nil _ | x :: r => Forall_cons _ (item_rect' x) (go r) end) l)
    end.
End Ind.

Section Tree.
  Variables (T : tables) (s : list Q) (fa : bool).
  Notation sounds d ps := (map (fun p => Sound p d) ps).

  Lemma chord_read d P c : forall last f,
    read_all (read T s fa) d (PChord last f) P (map note_tree c) =
    let! ps := rel_list T P last c in
    Ok (sounds d ps, PChord (List.last ps last) (match f with Some p => Some p | None => hd_error ps end), P).
  Proof.
    induction c as [|n c IH]; intros last f; cbn [map read_all rel_list bindr].
    - destruct f; reflexivity.
    - fold (read_all (read T s fa)). cbn [note_tree read read_pitch r_node].
      destruct (rel_pitch T P last n) as [[p k]|]; cbn [bindr read_all]; [|reflexivity].
      rewrite IH. destruct (rel_list T P p c) as [ps|]; cbn [bindr map hd_error app]; [|reflexivity].
      do 2 f_equal. f_equal. f_equal.
      + clear. revert p. induction ps as [|x ps IH]; intros p; [reflexivity|]. cbn [List.last] in *.
        destruct ps; [reflexivity|]. exact (IH p).
      + destruct f; reflexivity.
  Qed.

  Lemma abs_chord_read d P c : read_all (read T s fa) d PAbs P (map note_tree c) =
    let! ps := abs_list T P c in Ok (sounds d ps, PAbs, P).
  Proof.
    induction c as [|n c IH]; [reflexivity|]. cbn [map read_all abs_list bindr]. fold (read_all (read T s fa)).
    cbn [note_tree read read_pitch r_node]. destruct (read_node T P n) as [p|]; cbn [bindr read_all]; [|reflexivity].
    rewrite IH. destruct (abs_list T P c) as [ps|]; reflexivity.
  Qed.

  Definition simple i := no_relative i = true /\ no_check i = true.
  Lemma simple_list l : simple (IList l) -> Forall simple l.
  Proof.
    unfold simple, no_relative, no_check. cbn [every is_relative is_check negb andb]. intros [A B].
    rewrite forallb_forall in A, B. apply Forall_forall. intros x I. split; [exact (A _ I)|exact (B _ I)].
  Qed.

  Lemma rel_tree i : simple i -> forall d P prev,
    read T s fa d (PRel prev) P (tree i) = let! (ps, q) := rel_read T P fa prev i in Ok (sounds d ps, PRel q, P).
  Proof.
    induction i as [n|c|n| |st b IH|l IH] using item_rect'; intros S d P prev; try (destruct S; discriminate).
    - cbn [tree note_tree read read_pitch r_node rel_read]. destruct (rel_pitch T P prev n) as [[p k]|]; reflexivity.
    - cbn [tree read rel_read]. rewrite chord_read. destruct (rel_list T P prev c) as [ps|]; [|reflexivity]. cbn [bindr].
      destruct ps; reflexivity.
    - reflexivity.
    - apply simple_list in S. cbn [tree read rel_read]. revert P prev. induction IH as [|x r H _ IHr]; intros P prev; [reflexivity|].
      inversion S as [|? ? S1 S2]; subst. cbn [map read_all]. fold (read_all (read T s fa)). rewrite (H S1).
      destruct (rel_read T P fa prev x) as [[ps q]|]; [|reflexivity]. cbn [bindr].
      rewrite (IHr S2). match goal with |- bindr (bindr ?e _) _ = _ => destruct e as [[qs q']|] end; [|reflexivity].
      cbn [bindr]. now rewrite map_app.
  Qed.

  Lemma abs_tree i : simple i -> forall d P,
    read T s fa d PAbs P (tree i) = let! ps := abs_read T P fa i in Ok (sounds d ps, PAbs, P).
  Proof.
    induction i as [n|c|n| |st b IH|l IH] using item_rect'; intros S d P; try (destruct S; discriminate).
    - cbn [tree note_tree read read_pitch r_node abs_read]. destruct (read_node T P n) as [p|]; reflexivity.
    - cbn [tree read abs_read]. apply abs_chord_read.
    - reflexivity.
    - apply simple_list in S. cbn [tree read abs_read]. revert P. induction IH as [|x r H _ IHr]; intros P; [reflexivity|].
      inversion S as [|? ? S1 S2]; subst. cbn [map read_all]. fold (read_all (read T s fa)). rewrite (H S1).
      destruct (abs_read T P fa x) as [ps|]; [|reflexivity]. cbn [bindr].
      rewrite (IHr S2). match goal with |- bindr (bindr ?e _) _ = _ => destruct e as [qs|] end; [|reflexivity].
      cbn [bindr]. now rewrite map_app.
  Qed.

  Lemma relative_tree st b P : simple b ->
    meaning T s fa P (tree (IRelative st b)) =
    let! p := rel_start T P fa st in let! (ps, _) := rel_read T P fa p b in
    Ok (match st with Some _ => [Start p] | None => [] end ++ sounds 0%Q ps).
  Proof.
    intros S. unfold meaning. cbn [tree]. rewrite read_relative. destruct st as [n|]; cbn [app].
    - cbn [rel_read_lead note_tree forallb]. assert (is_comment (tree b) = false) as -> by (destruct b; reflexivity). cbn [andb r_node].
      cbn [rel_start]. destruct (read_node T P n) as [p|]; [|reflexivity]. cbn [bindr read_all]. rewrite (rel_tree _ S).
      destruct (rel_read T P fa p b) as [[ps q]|]; [|reflexivity]. cbn [bindr]. now rewrite app_nil_r.
    - assert (E : rel_read_lead T s fa 0%Q P [tree b] =
        let! (hs, _, P') := read_all (read T s fa) 0%Q (start_place fa) P [tree b] in Ok (hs, P')) by (destruct b; reflexivity).
      rewrite E. unfold start_place. cbn [read_all rel_start bindr]. rewrite (rel_tree _ S).
      destruct (rel_read T P fa _ b) as [[ps q]|]; [|reflexivity]. cbn [bindr]. now rewrite app_nil_r.
  Qed.
End Tree.

Lemma note_full c : forallb full (map note_tree c) = true.
Proof. now induction c. Qed.
Lemma note_usual b c : forallb (usual b) (map note_tree c) = true.
Proof. now induction c. Qed.
Lemma tree_full i : full (tree i) = true.
Proof.
  induction i as [n|c|n| |st b IH|l IH] using item_rect'; try reflexivity; cbn [tree full].
  - apply note_full.
  - destruct st; cbn; now rewrite IH.
  - induction IH as [|x r H _ IHr]; [reflexivity|]. cbn [map forallb]. now rewrite H.
Qed.
Lemma tree_usual i : forall b, usual b (tree i) = true.
Proof.
  induction i as [n|c|n| |st b' IH|l IH] using item_rect'; intros b; try reflexivity; cbn [tree usual].
  - apply note_usual.
  - destruct st; cbn; now rewrite IH.
  - induction IH as [|x r H _ IHr]; [reflexivity|]. cbn [map forallb]. now rewrite H.
Qed.

(** Music without its pitches. *)
Definition z0 : pnode := PNode [] None None.
Fixpoint shape (i : item) : item :=
  match i with
  | INote _ => INote z0
  | IChord c => IChord (map (fun _ => z0) c)
  | ICheck _ => ICheck z0
  | IOpaque => IOpaque
  | IRelative s b => IRelative (option_map (fun _ => z0) s) (shape b)
  | IList l => IList (map shape l)
  end.
Lemma shape_every f i : (forall j, f (shape j) = f j) -> every f (shape i) = every f i.
Proof.
  intros F. induction i as [n|c|n| |st b IH|l IH] using item_rect'; cbn [every shape];
    try reflexivity; f_equal; try (match goal with |- _ = f ?j => exact (F j) end).
  - exact IH.
  - induction IH as [|x r H' _ IHr]; [reflexivity|]. cbn [map forallb]. now rewrite H', IHr.
Qed.
Lemma shape_simple i j : shape j = shape i -> simple i -> simple j.
Proof.
  unfold simple, no_relative, no_check. intros E [A B].
  rewrite <- (shape_every _ j), E, (shape_every _ i) by (intros []; reflexivity). split; [exact A|].
  rewrite <- (shape_every _ j), E, (shape_every _ i) by (intros []; reflexivity). exact B.
Qed.

Lemma tree_note n y : same_but_pitches (note_tree n) y -> exists m, y = note_tree m.
Proof.
  intros H. inversion H as [? ? ? ? W _ _ F| | | | | | | | |? X]; subst; [|contradiction]. inversion F; subst. destruct n' as [m w]. cbn in W. subst w. now exists m.
Qed.
Lemma tree_back i : forall y, same_but_pitches (tree i) y -> exists j, y = tree j /\ shape j = shape i.
Proof.
  induction i as [n|c|n| |st b IH|l IH] using item_rect'; intros y H.
  - destruct (tree_note _ _ H) as (m & ->). now exists (INote m).
  - cbn [tree] in H. inversion H as [| | | | | |? ? F| | |? X]; subst; [|contradiction]. clear H.
    assert (X : exists d, ch' = map note_tree d /\ map (fun _ => z0) d = map (fun _ : pnode => z0) c).
    { revert ch' F. induction c as [|n c IH]; intros ch' F; inversion F; subst; [now exists []|].
      destruct (tree_note _ _ H1) as (m & ->). destruct (IH _ H3) as (d & -> & E). exists (m :: d). cbn. now rewrite E. }
    destruct X as (d & -> & E). exists (IChord d). cbn. now rewrite E.
  - cbn [tree] in H. inversion H as [| | | | | | |? ? F| |? X]; subst; [|contradiction]. inversion F as [|? ? ? ? F1 F2]; subst. inversion F2; subst.
    destruct (tree_note _ _ F1) as (m & ->). now exists (ICheck m).
  - cbn [tree] in H. inversion H; subst. now exists IOpaque.
  - cbn [tree] in H. inversion H as [| | |? ? F| | | | | |? X]; subst; [|contradiction]. destruct st as [n|]; cbn [app] in F.
    + inversion F as [|? ? ? ? F1 F2]; subst. inversion F2 as [|? ? ? ? F3 F4]; subst. inversion F4; subst.
      destruct (tree_note _ _ F1) as (m & ->). destruct (IH _ F3) as (j & -> & E). exists (IRelative (Some m) j). cbn. now rewrite E.
    + inversion F as [|? ? ? ? F3 F4]; subst. inversion F4; subst.
      destruct (IH _ F3) as (j & -> & E). exists (IRelative None j). cbn. now rewrite E.
  - cbn [tree] in H. inversion H as [| | | | | | | |? ? F|? X]; subst; [|contradiction]. clear H.
    assert (X : exists l', ch' = map tree l' /\ map shape l' = map shape l).
    { revert ch' F. induction IH as [|x r H _ IHr]; intros ch' F; inversion F; subst; [now exists []|].
      destruct (H _ H2) as (j & -> & E). destruct (IHr _ H4) as (d & -> & E2). exists (j :: d). cbn. now rewrite E, E2. }
    destruct X as (d & -> & E). exists (IList d). cbn. now rewrite E.
Qed.

Lemma no_check_last i : no_check i = true -> checks_last i = true.
Proof.
  unfold no_check, checks_last. induction i as [n|c|n| |st b IH|l IH] using item_rect'; intros H; try reflexivity; try discriminate.
  - cbn in *. exact (IH H).
  - cbn [every is_check negb andb check_last] in *. apply andb_true_intro. split.
    + apply negb_true_iff. apply not_true_iff_false. intros E. apply existsb_exists in E. destruct E as (x & I & C).
      assert (I2 : In x l). { clear - I. induction l as [|y l IHl]; [destruct I|]. cbn in I. destruct l; [destruct I|]. destruct I as [->|I]; [now left|right; now apply IHl]. }
      rewrite forallb_forall in H. specialize (H _ I2). destruct x; try discriminate.
    + apply forallb_forall. intros x I. rewrite forallb_forall in H. rewrite Forall_forall in IH. exact (IH _ I (H _ I)).
Qed.

Lemma drop_none i : simple i -> drop_checks i = i.
Proof.
  induction i as [n|c|n| |st b IH|l IH] using item_rect'; intros S; try reflexivity.
  apply simple_list in S. cbn [drop_checks]. f_equal. induction IH as [|x r H _ IHr]; [reflexivity|].
  inversion S as [|? ? S1 S2]; subst. cbn [map filter]. rewrite (H S1).
  assert (is_check x = false) as -> by (destruct x; try reflexivity; destruct S1; discriminate). cbn [negb]. now rewrite (IHr S2).
Qed.
Lemma bare_shape i : shape (bare i) = shape i.
Proof.
  induction i as [n|c|n| |st b IH|l IH] using item_rect'; try reflexivity; cbn [bare shape].
  - now rewrite map_map.
  - now rewrite IH.
  - f_equal. rewrite map_map. induction IH as [|x r H _ IHr]; [reflexivity|]. cbn [map]. now rewrite H, IHr.
Qed.

Section Sounds.
  Variable t : transposer.
  Lemma sounds_transposed ps hs' : Forall2 (heard_transposed t) (map (fun p => Sound p 0%Q) ps) hs' ->
    forall qs, hs' = map (fun p => Sound p 0%Q) qs -> Forall2 (transposed t) ps qs.
  Proof.
    revert hs'. induction ps as [|p ps IH]; intros hs' F qs ->; inversion F as [A B|? ? ? ? H F1 A B]; subst.
    - destruct qs; [constructor|discriminate].
    - destruct qs as [|q qs]; [discriminate|]. cbn [map] in B. injection B as -> ->. constructor; [apply H|exact (IH _ F1 _ eq_refl)].
  Qed.
End Sounds.

Lemma no_references t (st : option pnode) p ps : references_kept t (match st with Some _ => [Start p] | None => [] end ++ map (fun p => Sound p 0%Q) ps).
Proof.
  intros r q I. apply in_app_or in I. destruct I as [I|I].
  - destruct st; [destruct I as [I|[]]; discriminate|destruct I].
  - apply in_map_iff in I. destruct I as (x & E & _). discriminate.
Qed.

(** First transposed, then converted: the music can be converted, and its
    absolute pitches are those of the relative music transposed. *)
Theorem C128_transpose_first : forall T t sc o fa P s b p ps q y,
  tables_ok T -> (forall P', uniform T P' o) -> tr_scale t = Some sc ->
  no_relative b = true -> no_check b = true ->
  rel_start T P fa s = Ok p -> rel_read T P fa p b = Ok (ps, q) ->
  transpose_doc T t fa P (tree (IRelative s b)) = Ok y ->
  exists s' b' c qs, y = tree (IRelative s' b') /\ convert T P fa s' b' = Ok c /\
    abs_read T P fa c = Ok qs /\ Forall2 (transposed t) ps qs.
Proof.
  intros T t sc o fa P s b p ps q y OK U SC NR NC S R H.
  destruct (C125_document_partial _ _ _ _ _ _ _ _ OK U SC (tree_full _) (tree_usual _ _) H) as (hs & hs' & M & M' & X).
  destruct (tree_back _ _ (C125_only_pitches _ _ _ _ _ _ H)) as (j & -> & E).
  destruct j as [|?| | |s' b'|?]; try discriminate. cbn [shape] in E. injection E as ES EB.
  assert (SB : simple b) by now split.
  pose proof (shape_simple _ _ EB SB) as SB'.
  rewrite (relative_tree _ _ _ _ _ _ SB), S in M. cbn [bindr] in M. rewrite R in M. cbn [bindr] in M. injection M as <-.
  rewrite (relative_tree _ _ _ _ _ _ SB') in M'.
  destruct (rel_start T P fa s') as [p'|] eqn:S'; [|discriminate]. cbn [bindr] in M'.
  destruct (rel_read T P fa p' b') as [[qs q']|] eqn:R'; [|discriminate]. cbn [bindr] in M'. injection M' as <-.
  destruct (C29_rel2abs_partial T P fa s' b' p' qs q' (proj1 SB') (no_check_last _ (proj2 SB')) S' R') as (c & C & A & _).
  exists s', b', c, qs. split; [reflexivity|]. split; [exact C|]. split; [exact A|].
  specialize (X (no_references _ _ _ _)). destruct s, s'; try discriminate; cbn [app] in X.
  - inversion X as [|? ? ? ? _ X']; subst. exact (sounds_transposed _ _ _ X' _ eq_refl).
  - exact (sounds_transposed _ _ _ X _ eq_refl).
Qed.
Print Assumptions C128_transpose_first.

(** First converted, then transposed. *)
Theorem C128_convert_first : forall T t sc o fa P s b p ps q,
  tables_ok T -> (forall P', uniform T P' o) -> tr_scale t = Some sc ->
  no_relative b = true -> no_check b = true ->
  rel_start T P fa s = Ok p -> rel_read T P fa p b = Ok (ps, q) ->
  exists c, convert T P fa s b = Ok c /\
    forall y, transpose_doc T t fa P (tree c) = Ok y ->
      exists c' qs, y = tree c' /\ abs_read T P fa c' = Ok qs /\ Forall2 (transposed t) ps qs.
Proof.
  intros T t sc o fa P s b p ps q OK U SC NR NC S R. assert (SB : simple b) by now split.
  destruct (C29_rel2abs_partial T P fa s b p ps q NR (no_check_last _ NC) S R) as (c & C & A & B).
  exists c. split; [exact C|]. intros y H. rewrite (drop_none _ SB) in B.
  assert (SC' : simple c) by (apply (shape_simple b c); [rewrite <- (bare_shape c), B, bare_shape; reflexivity|exact SB]).
  destruct (C125_document_partial _ _ _ _ _ _ _ _ OK U SC (tree_full _) (tree_usual _ _) H) as (hs & hs' & M & M' & X).
  destruct (tree_back _ _ (C125_only_pitches _ _ _ _ _ _ H)) as (c' & -> & E).
  pose proof (shape_simple _ _ E SC') as SJ. unfold meaning in M, M'. rewrite (abs_tree _ _ _ _ SC'), A in M. cbn [bindr] in M. injection M as <-.
  rewrite (abs_tree _ _ _ _ SJ) in M'. destruct (abs_read T P fa c') as [qs|] eqn:A2; [|discriminate]. cbn [bindr] in M'. injection M' as <-.
  exists c', qs. split; [reflexivity|]. split; [exact A2|].
  refine (sounds_transposed _ _ _ (X _) _ eq_refl). exact (no_references t None p ps).
Qed.
Print Assumptions C128_convert_first.

(** So the order does not matter. *)
Theorem C128_commute : forall T t sc o fa P s b p ps q s' b' c c1 c2,
  tables_ok T -> (forall P', uniform T P' o) -> tr_scale t = Some sc ->
  no_relative b = true -> no_check b = true ->
  rel_start T P fa s = Ok p -> rel_read T P fa p b = Ok (ps, q) ->
  transpose_doc T t fa P (tree (IRelative s b)) = Ok (tree (IRelative s' b')) -> convert T P fa s' b' = Ok c1 ->
  convert T P fa s b = Ok c -> transpose_doc T t fa P (tree c) = Ok (tree c2) ->
  exists qs1 qs2, abs_read T P fa c1 = Ok qs1 /\ abs_read T P fa c2 = Ok qs2 /\ Forall2 peq qs1 qs2.
Proof.
  intros T t sc o fa P s b p ps q s' b' c c1 c2 OK U SC NR NC S R H1 C1 C H2.
  assert (INJ : forall i j, tree i = tree j -> i = j).
  { assert (NI : forall a b, map note_tree a = map note_tree b -> a = b).
    { induction a as [|x a IH]; intros [|z b0] E; try discriminate; [reflexivity|]. cbn in E. injection E as E1 E2. f_equal; [exact E1|now apply IH]. }
    induction i as [n|k|n| |st b0 IH|l IH] using item_rect'; intros [m|k'|m| |st' b0'|l'] E; try discriminate; cbn [tree] in E.
    - now injection E as ->.
    - injection E as E. now rewrite (NI _ _ E).
    - now injection E as ->.
    - reflexivity.
    - injection E as E. destruct st, st'; cbn in E; try discriminate; injection E; intros; subst; f_equal; apply IH; assumption.
    - injection E as E. f_equal. revert l' E. induction IH as [|x r H _ IHr]; intros [|z l'] E; try discriminate; [reflexivity|].
      cbn in E. injection E as E1 E2. f_equal; [now apply H|now apply IHr]. }
  destruct (C128_transpose_first _ _ _ _ _ _ _ _ _ _ _ _ OK U SC NR NC S R H1) as (s1 & b1 & c0 & qs1 & E & C0 & A1 & X1).
  apply INJ in E. injection E as <- <-. rewrite C1 in C0. injection C0 as <-.
  destruct (C128_convert_first _ t _ _ _ _ _ _ _ _ _ OK U SC NR NC S R) as (c3 & C3 & K). rewrite C in C3. injection C3 as <-.
  destruct (K _ H2) as (c4 & qs2 & E & A2 & X2). apply INJ in E. subst c4.
  exists qs1, qs2. split; [exact A1|]. split; [exact A2|]. clear - X1 X2.
  revert qs2 X2. induction X1 as [|x y l l' (r & T1 & P1) _ IH]; intros qs2 X2; inversion X2 as [|? z ? ? (r' & T2 & P2) X3]; subst; constructor.
  - rewrite T1 in T2. injection T2 as <-. destruct P1 as (A & B & D), P2 as (A' & B' & D'). repeat split; try congruence. rewrite D, D'. reflexivity.
  - now apply IH.
Qed.
Print Assumptions C128_commute.

(** Absolute music converted to relative music and then transposed. *)
Theorem C128_to_relative : forall T t sc o fa P ws b ps s b' y,
  tables_ok T -> (forall P', uniform T P' o) -> tr_scale t = Some sc ->
  (ws = true -> exists t name o, lang_table T (language P) = Ok t /\ names_pitch t name o 0 0) ->
  no_relative b = true -> no_check b = true -> no_chord b = true ->
  abs_read T P fa b = Ok ps ->
  make_relative_music T P fa ws b = Ok (s, b') ->
  transpose_doc T t fa P (tree (IRelative s b')) = Ok y ->
  exists s2 b2 p qs q, y = tree (IRelative s2 b2) /\ rel_start T P fa s2 = Ok p /\
    rel_read T P fa p b2 = Ok (qs, q) /\ Forall2 (transposed t) ps qs.
Proof.
  intros T t sc o fa P ws b ps s b' y OK U SC N NR NC NH A M H. assert (SB : simple b) by now split.
  destruct (C30_abs2rel_partial T P fa ws b ps OK N NR NC NH A) as (s0 & b0 & p & q & M0 & S & R & B & _).
  rewrite M in M0. injection M0 as <- <-.
  assert (SB' : simple b') by (apply (shape_simple b b'); [rewrite <- (bare_shape b'), B, bare_shape; reflexivity|exact SB]).
  destruct (C125_document_partial _ _ _ _ _ _ _ _ OK U SC (tree_full _) (tree_usual _ _) H) as (hs & hs' & M1 & M2 & X).
  destruct (tree_back _ _ (C125_only_pitches _ _ _ _ _ _ H)) as (j & -> & E).
  destruct j as [|?| | |s2 b2|?]; try discriminate. cbn [shape] in E. injection E as ES EB.
  pose proof (shape_simple _ _ EB SB') as SB2.
  rewrite (relative_tree _ _ _ _ _ _ SB'), S in M1. cbn [bindr] in M1. rewrite R in M1. cbn [bindr] in M1. injection M1 as <-.
  rewrite (relative_tree _ _ _ _ _ _ SB2) in M2.
  destruct (rel_start T P fa s2) as [p2|] eqn:S2; [|discriminate]. cbn [bindr] in M2.
  destruct (rel_read T P fa p2 b2) as [[qs q2]|] eqn:R2; [|discriminate]. cbn [bindr] in M2. injection M2 as <-.
  exists s2, b2, p2, qs, q2. split; [reflexivity|]. split; [exact S2|]. split; [exact R2|].
  specialize (X (no_references _ _ _ _)). destruct s, s2; try discriminate; cbn [app] in X.
  - inversion X as [|? ? ? ? _ X']; subst. exact (sounds_transposed _ _ _ X' _ eq_refl).
  - exact (sounds_transposed _ _ _ X _ eq_refl).
Qed.
Print Assumptions C128_to_relative.

Example C128_to_relative_witness : (* { c' { g'' } } up a fourth *)
  let t := major_transposer c0 (Pitch (-1) 3 0) in
  let nt := Relative_Props.nt in
  let b := IList [INote (nt "c" 1); IList [INote (nt "g" 2)]] in
  let b' := IList [INote (nt "c" 0); IList [INote (nt "g" 2)]] in
  no_relative b = true /\ no_check b = true /\ no_chord b = true /\
  (exists ps, abs_read ex_tables default_processor true b = Ok ps) /\
  (exists s, make_relative_music ex_tables default_processor true true b = Ok (Some s, plain_zero b') /\
    exists y, transpose_doc ex_tables t true default_processor (tree (IRelative (Some s) (plain_zero b'))) = Ok y).
Proof.
  cbv zeta. repeat (split; [reflexivity|]). split; [eexists; vm_compute; reflexivity|].
  eexists. split; [vm_compute; reflexivity|]. eexists. vm_compute. reflexivity.
Qed.

Example C128_witness : (* \relative c'' { c <e g b'> { f, } }, up a fourth *)
  let t := major_transposer c0 (Pitch (-1) 3 0) in
  let nt := Relative_Props.nt in
  let b := IList [INote (nt "c" 0); IChord [nt "e" 0; nt "g" 0; nt "b" 1]; IList [INote (nt "f" (-1))]] in
  let b' := IList [INote (nt "f" 0); IChord [nt "a" 0; nt "c" 0; nt "e" 1]; IList [INote (nt "bes" (-1))]] in
  no_relative b = true /\ no_check b = true /\
  (exists x, rel_read ex_tables default_processor true (Pitch 1 0 0) b = Ok x) /\
  transpose_doc ex_tables t true default_processor (tree (IRelative (Some (nt "c" 2)) b)) = Ok (tree (IRelative (Some (nt "f" 2)) b')) /\
  exists c, convert ex_tables default_processor true (Some (nt "c" 2)) b = Ok c /\
    exists c2, transpose_doc ex_tables t true default_processor (tree c) = Ok (tree c2) /\
      convert ex_tables default_processor true (Some (nt "f" 2)) b' = Ok c2.
Proof.
  cbv zeta. split; [reflexivity|]. split; [reflexivity|]. split; [eexists; vm_compute; reflexivity|]. split; [vm_compute; reflexivity|].
  eexists. split; [vm_compute; reflexivity|].
  exists (IList [INote (Relative_Props.nt "f" 2); IChord [Relative_Props.nt "a" 2; Relative_Props.nt "c" 3; Relative_Props.nt "e" 4]; IList [INote (Relative_Props.nt "bes" 1)]]).
  split; vm_compute; reflexivity.
Qed.
