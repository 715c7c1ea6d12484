(** Property C128, success: in languages with names for the transposed pitches
    both ways succeed, and with the same pitches. *)
From Coq Require Import String Ascii List ZArith QArith Bool Lia.
From Verif Require Import Base Pitch_Model Pitch_Spec Pitch_Proofs Pitch_Lang Transpose_Model Transpose_Spec Transpose_Proofs.
From Verif Require Import Transpose_Props Transposedoc_Model Transposedoc_Spec Transposedoc_Proofs Transposedoc_Props Transposedoc_Total.
From Verif Require Import Relative_Model Relative_Spec Relative_Proofs Relative_Props Relative_Transpose.
Import ListNotations.
Local Open Scope string_scope. Local Open Scope list_scope.
Open Scope Z_scope.

Theorem C128_succeeds : forall T t sc o fa P s b p ps q,
  tables_ok T -> (forall P', uniform T P' o) -> tr_scale t = Some sc -> good_scale sc -> names_suffice T t ->
  no_relative b = true -> no_check b = true ->
  rel_start T P fa s = Ok p -> rel_read T P fa p b = Ok (ps, q) ->
  exists s' b' c c1 c2 qs1 qs2,
    transpose_doc T t fa P (tree (IRelative s b)) = Ok (tree (IRelative s' b')) /\ convert T P fa s' b' = Ok c1 /\
    convert T P fa s b = Ok c /\ transpose_doc T t fa P (tree c) = Ok (tree c2) /\
    abs_read T P fa c1 = Ok qs1 /\ abs_read T P fa c2 = Ok qs2 /\
    Forall2 (transposed t) ps qs1 /\ Forall2 (transposed t) ps qs2.
Proof.
  intros T t sc o fa P s b p ps q OK U SC G N NR NC S R. assert (SB : simple b) by now split.
  assert (M : meaning T sc fa P (tree (IRelative s b)) = Ok (match s with Some _ => [Start p] | None => [] end ++ map (fun p => Sound p 0%Q) ps)).
  { rewrite (relative_tree _ _ _ _ _ _ SB), S. cbn [bindr]. now rewrite R. }
  destruct (C126_succeeds _ _ _ _ _ _ _ SC G N (tree_usual _ _) M) as (y & H).
  destruct (C128_transpose_first _ _ _ _ _ _ _ _ _ _ _ _ OK U SC NR NC S R H) as (s' & b' & c1 & qs1 & -> & C1 & A1 & X1).
  destruct (C128_convert_first _ t _ _ _ _ _ _ _ _ _ OK U SC NR NC S R) as (c & C & K).
  destruct (C29_rel2abs_partial T P fa s b p ps q NR (no_check_last _ NC) S R) as (c0 & C0 & A & B).
  rewrite C in C0. injection C0 as <-. rewrite (drop_none _ SB) in B.
  assert (SC' : simple c) by (apply (shape_simple b c); [rewrite <- (bare_shape c), B, bare_shape; reflexivity|exact SB]).
  assert (M2 : meaning T sc fa P (tree c) = Ok (map (fun p => Sound p 0%Q) ps)).
  { unfold meaning. now rewrite (abs_tree _ _ _ _ SC'), A. }
  destruct (C126_succeeds _ _ _ _ _ _ _ SC G N (tree_usual _ _) M2) as (y2 & H2).
  destruct (K _ H2) as (c2 & qs2 & -> & A2 & X2).
  exists s', b', c, c1, c2, qs1, qs2. repeat (split; [assumption|]). assumption.
Qed.
Print Assumptions C128_succeeds.

Lemma semitone_ok : tables_ok semitone_tables.
Proof.
  assert (D : forall l : list str, (fix nd (l : list str) := match l with [] => true | x :: r => negb (in_strs x r) && nd r end) l = true -> NoDup l).
  { induction l as [|x r IH]; intros H; [constructor|]. apply andb_prop in H. destruct H as [A B].
    constructor; [|now apply IH]. intros C. apply in_strs_iff in C. rewrite C in A. discriminate. }
  split; [apply D; vm_compute; reflexivity|].
  intros l i t [H|[]]. injection H as <- <- <-. apply D; vm_compute; reflexivity.
Qed.
Lemma semitone_uniform : forall P, uniform semitone_tables P (-1).
Proof.
  intros P t name o' n a H I. unfold lang_table in H.
  destruct (dget str_eqb semitone_tables (language P)) as [[k tb]|] eqn:E; [|discriminate].
  apply dget_str_in in E. destruct E as [E|[]]. injection E as _ <- <-. injection H as <-.
  cbn in I. repeat destruct I as [I|I]; try contradiction; injection I as <- <- <- <-; lia.
Qed.

Example C128_succeeds_witness : (* up a semitone, in a language with names for all semitones *)
  let t := major_transposer c0 (Pitch (-1) 0 (1#2)) in
  let nt := Relative_Props.nt in
  let b := IList [INote (nt "c" 0); IChord [nt "e" 0; nt "g" 0; nt "b" 1]; IList [INote (nt "f" (-1))]] in
  tables_ok semitone_tables /\ (exists o, forall P', uniform semitone_tables P' o) /\ names_suffice semitone_tables t /\
  no_relative b = true /\ no_check b = true /\
  (exists p, rel_start semitone_tables default_processor true (Some (nt "c" 2)) = Ok p /\
     exists x, rel_read semitone_tables default_processor true p b = Ok x).
Proof.
  cbv zeta. split; [exact semitone_ok|]. split; [exists (-1); exact semitone_uniform|].
  split; [exact (proj1 (proj2 (proj2 (proj2 (proj2 C126_witness)))))|]. split; [reflexivity|]. split; [reflexivity|].
  eexists. split; [vm_compute; reflexivity|]. eexists. vm_compute. reflexivity.
Qed.
