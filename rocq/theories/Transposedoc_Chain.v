(** Property C124 for whole documents: transposing a document several times. *)
From Coq Require Import String Ascii List ZArith QArith Lqa Bool Lia.
From Verif Require Import Base Pitch_Model Pitch_Spec Pitch_Proofs Transpose_Model Transpose_Spec Transpose_Proofs.
From Verif Require Import Transpose_Props Transpose_Chain Transposedoc_Model Transposedoc_Spec Transposedoc_Proofs Transposedoc_Props.
Import ListNotations.
Open Scope Z_scope.

(** Specification: transpositions of a document one after the other, each keeping
    the references of \fixed in what is read before it. *)
Inductive doc_history (T : tables) (fa : bool) (P : processor) (s : list Q)
    : list transposer -> mtree -> mtree -> Prop :=
| dh_none x : doc_history T fa P s [] x x
| dh_next t ts x x1 x2 :
    transpose_doc T t fa P x = Ok x1 ->
    (forall hs, meaning T s fa P x = Ok hs -> references_kept t hs) ->
    doc_history T fa P s ts x1 x2 ->
    doc_history T fa P s (t :: ts) x x2.

(** The same thing is heard, [i] whole tones higher. *)
Definition heard_higher (s : list Q) (i : Q) (h h' : heard) : Prop :=
  match h, h' with
  | Sound p d, Sound p' d' => (height s p' + d' == height s p + d + i)%Q
  | KeyNote p d, KeyNote p' d' => octave p' = octave p /\ (d' == d)%Q
  | Start p, Start p' | Reference p, Reference p' => (height s p' == height s p + i)%Q
  | _, _ => False
  end.

Section Kept.
  Definition keeps (x : mtree) : Prop := forall x', same_but_pitches x x' ->
    full x' = full x /\ (forall b, usual b x' = usual b x) /\ is_comment x' = is_comment x /\
    match x, x' with MPitch _ ch, MPitch _ ch' => List.length ch' = List.length ch | MPitch _ _, _ | _, MPitch _ _ => False | _, _ => True end.

  Lemma Forall2_len {A B} (R : A -> B -> Prop) l m : Forall2 R l m -> List.length m = List.length l.
  Proof. induction 1; cbn; congruence. Qed.

  Lemma keeps_all l l' : Forall keeps l -> Forall2 same_but_pitches l l' ->
    forallb full l' = forallb full l /\ (forall b, forallb (usual b) l' = forallb (usual b) l).
  Proof.
    intros K F. induction F as [|x y r r' H F IH]; [now split|]. inversion K as [|? ? K1 K2]; subst.
    destruct (K1 _ H) as (E1 & E2 & _). destruct (IH K2) as [F1 F2]. cbn [forallb]. rewrite E1, F1. split; [reflexivity|].
    intros b. now rewrite E2, F2.
  Qed.

  Lemma keeps_reference l l' : Forall keeps l -> Forall2 same_but_pitches l l' -> reference_first l' = reference_first l.
  Proof.
    intros K F. induction F as [|x y r r' H F IH]; [reflexivity|]. inversion K as [|? ? K1 K2]; subst.
    destruct (K1 _ H) as (_ & _ & E & M). specialize (IH K2). destruct x, y; cbn in *; try discriminate; try contradiction; congruence.
  Qed.

  Lemma keeps_args l l' : Forall keeps l -> Forall2 same_but_pitches l l' ->
    match l' with MPitch _ [] :: MPitch _ [] :: _ => true | _ => false end =
    match l with MPitch _ [] :: MPitch _ [] :: _ => true | _ => false end.
  Proof.
    intros K F. inversion F as [|x y r r' H F']; subst; [reflexivity|].
    inversion K as [|? ? K1 K2]; subst. destruct (K1 _ H) as (_ & _ & _ & M).
    inversion F' as [|x2 y2 r2 r2' H2 F2]; subst.
    - destruct x as [? [|]| | | | | | | | | | |], y as [? [|]| | | | | | | | | | |]; cbn in M; try contradiction; try discriminate; reflexivity.
    - inversion K2 as [|? ? K3 K4]; subst. destruct (K3 _ H2) as (_ & _ & _ & M2).
      destruct x as [? [|]| | | | | | | | | | |], y as [? [|]| | | | | | | | | | |]; cbn in M; try contradiction; try discriminate; try reflexivity;
      destruct x2 as [? [|]| | | | | | | | | | |], y2 as [? [|]| | | | | | | | | | |]; cbn in M2; try contradiction; try discriminate; reflexivity.
  Qed.

  Lemma all_keep x : keeps x.
  Proof.
    induction x as [n ch G|ch G|ch G|ch G|ch G|ch G|ch|ch G|ch G|l| |ch G] using mtree_rect'; intros x' H;
      inversion H as [? ? ? ? W _ _ F|? ? F|? ? F|? ? F|? ? F|? ? F|? ? F|? ? F|? ? F|? X]; subst; try contradiction;
      try (repeat split; reflexivity); destruct (keeps_all _ _ G F) as [E1 E2]; cbn [full usual is_comment].
    - rewrite W, E1. repeat split; try (intros; apply E2). exact (Forall2_len _ _ _ F).
    - repeat split; [exact E1|]. intros. apply E2.
    - repeat split; [exact E1|]. intros. apply E2.
    - repeat split; [exact E1|]. intros. apply E2.
    - repeat split; [exact E1|]. intros. now rewrite E2, (keeps_reference _ _ G F).
    - repeat split; [exact E1|]. intros. now rewrite E2, (keeps_args _ _ G F).
    - repeat split; [exact E1|]. intros. apply E2.
    - repeat split; [exact E1|]. intros. apply E2.
    - repeat split; [exact E1|]. intros. apply E2.
  Qed.
End Kept.

(** Each document of the history can be read, and all that sounds has gone up by
    the sum of the intervals. *)
Theorem C124_document_history : forall T s o fa P ts x x' hs,
  tables_ok T -> (forall P', uniform T P' o) -> Forall (fun t => tr_scale t = Some s) ts ->
  full x = true -> usual false x = true ->
  doc_history T fa P s ts x x' -> meaning T s fa P x = Ok hs ->
  exists hs', meaning T s fa P x' = Ok hs' /\ Forall2 (heard_higher s (total ts)) hs hs'.
Proof.
  intros T s o fa P ts x x' hs OK U S F W H. revert hs S F W.
  induction H as [x|t ts x x1 x2 H1 RK H2 IH]; intros hs S F W M.
  - exists hs. split; [exact M|]. clear M. induction hs as [|h hs IH]; constructor; [|exact IH].
    destruct h; cbn; try ring. now split.
  - inversion S as [|? ? SC S']; subst.
    destruct (C125_document_partial _ _ _ _ _ _ _ _ OK U SC F W H1) as (h0 & h1 & E0 & E1 & X).
    rewrite M in E0. injection E0 as <-. specialize (X (RK _ M)).
    destruct (all_keep x x1 (C125_only_pitches _ _ _ _ _ _ H1)) as (F1 & W1 & _).
    rewrite <- F1 in F. rewrite <- W1 in W. destruct (IH h1 S' F W E1) as (hs' & E2 & Y).
    exists hs'. split; [exact E2|]. eapply Forall2_trans; [|exact X|exact Y].
    intros a b c A B. cbn [total fold_right]. fold (total ts).
    destruct a, b; try contradiction; destruct c; try contradiction; cbn in *.
    + destruct A as [A1 A2]. rewrite B, A2, (transposed_height _ s _ _ SC A1). ring.
    + destruct A as [(q & _ & A1 & _) A2]. destruct B as [B1 B2]. split; [congruence|]. now rewrite B2.
    + rewrite B, (transposed_height _ s _ _ SC A). ring.
    + rewrite B, (transposed_height _ s _ _ SC A). ring.
Qed.
Print Assumptions C124_document_history.

Example C124_document_witness : (* the example up a fourth and down again *)
  let f0 := Pitch (-1) 3 0 in
  doc_history ex_tables true default_processor major_scale [major_transposer c0 f0; major_transposer f0 c0] ex_doc ex_doc /\
  (total [major_transposer c0 f0; major_transposer f0 c0] == 0)%Q.
Proof.
  cbv zeta. split; [|vm_compute; reflexivity].
  eapply dh_next with (x1 := ex_doc_up); [vm_compute; reflexivity| |].
  - intros hs H. vm_compute in H. injection H as <-. intros r q I. repeat destruct I as [I|I]; try discriminate; try contradiction.
    injection I as <-. intros H. vm_compute in H. injection H as <-. reflexivity.
  - eapply dh_next with (x1 := ex_doc); [vm_compute; reflexivity| |constructor].
    intros hs H. vm_compute in H. injection H as <-. intros r q I. repeat destruct I as [I|I]; try discriminate; try contradiction.
    injection I as <-. intros H. vm_compute in H. injection H as <-. reflexivity.
Qed.
