(** Property C110: making the music in a document relative. *)
From Coq Require Import String Ascii List ZArith QArith Bool Lia.
From Verif Require Import Base Pitch_Model Pitch_Spec Pitch_Proofs Transpose_Model Transpose_Spec Transpose_Proofs Transpose_Props.
From Verif Require Import Relative_Model Relative_Spec Relative_Proofs Relative_Props Abs2rel_Model Abs2rel_Spec Abs2rel_Proofs.
Import ListNotations.
Open Scope Z_scope.

(** ** C110: abs2rel on a document or a range *)

(** Exactly the topmost lists with notes of their own (and \chordmode) that are
    in the range and not in \relative get a \relative; within them only octaves
    change.  [inr] and [whole] say which nodes are in the range in part and
    completely; see C43 and C45 for what ranges are. *)
Theorem C110_chosen : forall T first_absolute ws inr whole P doc doc' p,
  edit_range T first_absolute ws inr whole doc P = Ok doc' -> chosen inr whole doc p ->
  exists t u, at_trail doc p = Some t /\ at_trail doc' p = Some u /\ made_relative t u.
Proof.
  intros T fa ws inr whole P doc doc' p E C. apply pick_spec in C. unfold edit_range in E.
  destruct (edit_trees T fa ws inr whole [] 0 doc P) as [[l' P1]|] eqn:E1; [|discriminate]. cbn [bindr] in E. injection E as <-.
  destruct p as [|i q]; [discriminate|]. cbn [pick] in C. destruct (nth_error doc i) as [t|] eqn:N; [|discriminate].
  destruct (edit_trees_nth _ _ _ _ _ _ _ _ _ _ _ E1) as (_ & H). destruct (H i t N) as (t' & Pa & Pb & A & B). cbn [app Nat.add] in B.
  rewrite !at_trail_sub, N, A. exact (edit_picked _ _ _ _ _ _ _ _ _ _ _ B C).
Qed.
Print Assumptions C110_chosen.

(** All other nodes stay what and where they are, and no node comes in addition. *)
Theorem C110_others : forall T first_absolute ws inr whole P doc doc' p,
  edit_range T first_absolute ws inr whole doc P = Ok doc' ->
  (forall q, chosen inr whole doc q -> q <> p /\ ~ above q p) ->
  option_map label (at_trail doc' p) = option_map label (at_trail doc p).
Proof.
  intros T fa ws inr whole P doc doc' p E C. unfold edit_range in E.
  destruct (edit_trees T fa ws inr whole [] 0 doc P) as [[l' P1]|] eqn:E1; [|discriminate]. cbn [bindr] in E. injection E as <-.
  destruct p as [|i q]; [reflexivity|]. destruct (edit_trees_nth _ _ _ _ _ _ _ _ _ _ _ E1) as (L & H). rewrite !at_trail_sub.
  destruct (nth_error doc i) as [t|] eqn:N.
  - destruct (H i t N) as (t' & Pa & Pb & A & B). cbn [app Nat.add] in B. rewrite A. apply (edit_others _ _ _ _ _ _ _ _ _ _ _ B).
    intros q1 q2 Q. destruct (picked inr whole [i] t q1) eqn:K; [|reflexivity].
    assert (CH : chosen inr whole doc (i :: q1)) by (apply pick_spec; cbn [pick]; now rewrite N). destruct (C _ CH) as [C1 C2].
    destruct q2 as [|j q2]; [rewrite app_nil_r in Q; congruence|]. elim C2. split; [discriminate|]. exists (j :: q2). split; [discriminate|]. now rewrite Q.
  - apply nth_error_None in N. rewrite <- L in N. apply nth_error_None in N. now rewrite N.
Qed.
Print Assumptions C110_others.

(** Doing it again changes nothing, in whatever language. *)
Theorem C110_again : forall T first_absolute ws inr whole P Q doc doc',
  edit_range T first_absolute ws inr whole doc P = Ok doc' -> edit_range T first_absolute ws inr whole doc' Q = Ok doc'.
Proof.
  intros T fa ws inr whole P Q doc doc' E. unfold edit_range in *.
  destruct (edit_trees T fa ws inr whole [] 0 doc P) as [[l' P1]|] eqn:E1; [|discriminate]. cbn [bindr] in E. injection E as <-.
  now rewrite (edits_again _ _ _ _ _ _ _ _ _ _ _ E1).
Qed.
Print Assumptions C110_again.

(** The document sounds the same.
    Missing for the full claim: lists to be converted that contain chords, octave
    checks, \relative or \chordmode, lists in \fixed, \chordmode, and language
    changes; there the code is wrong (see the findings below and C30). *)
Theorem C110_heard_partial : forall T first_absolute ws inr whole P doc ps, tables_ok T ->
  (ws = true -> exists t name o, lang_table T (language P) = Ok t /\ names_pitch t name o 0 0) ->
  Forall (one_language T P) doc ->
  (forall p t, chosen inr whole doc p -> at_trail doc p = Some t ->
    simple t = true /\ forall q m, above q p -> at_trail doc q <> Some (TNode KFixed m)) ->
  heard T first_absolute P doc = Ok ps ->
  exists doc', edit_range T first_absolute ws inr whole doc P = Ok doc' /\ heard T first_absolute P doc' = Ok ps.
Proof.
  intros T fa ws inr whole P doc ps OK CS O C H. unfold heard in *.
  assert (OL : one_languages T P doc) by (clear - O; induction O; cbn; auto).
  destruct (sounds_all T fa doc P (Fixed 0)) as [[[ps1 c1] P1]|] eqn:E; [|discriminate]. cbn [bindr] in H. injection H as <-.
  destruct (sounds_all_same _ _ _ _ _ _ _ _ OL E) as (-> & _).
  destruct (heard_trees T fa ws P OK CS inr whole doc [] 0%nat ps1 c1 OL) as (l' & A & B); [|exact E|].
  - intros j t N q u K S. cbn [app Nat.add] in K. destruct (C (j :: q) u) as (C1 & C2).
    + apply pick_spec. cbn [pick]. now rewrite N.
    + now rewrite at_trail_sub, N.
    + split; [exact C1|]. intros q1 q2 m Q NE X. elim (C2 (j :: q1) m).
      * split; [discriminate|]. exists q2. split; [exact NE|]. now rewrite Q.
      * now rewrite at_trail_sub, N.
  - exists l'. unfold edit_range. rewrite A. cbn [bindr]. rewrite B. split; reflexivity.
Qed.
Print Assumptions C110_heard_partial.

Definition all : list nat -> bool := fun _ => true.
Definition nn (h : string) (o : Z) : tree := TNote (nt h o) [].

(** { \key c { c' { d' } } } \relative { c } << { e'' } >>, without a selection *)
Definition ex_doc : list tree :=
  [TNode KOther [TNode KOpaque [nn "c" 0]; TNode KList [nn "c" 1; TNode KList [nn "d" 1]]]; TNode KRelative [TNode KList [nn "c" 0]]; TNode KList [TNode KList [nn "e" 2]]].
Example C110_witness : Forall (one_language ex_tables default_processor) ex_doc /\
  chosen all all ex_doc [0%nat; 1%nat] /\ chosen all all ex_doc [2%nat; 0%nat] /\ ~ chosen all all ex_doc [1%nat; 0%nat] /\ ~ chosen all all ex_doc [0%nat; 1%nat; 1%nat] /\
  (forall p t, chosen all all ex_doc p -> at_trail ex_doc p = Some t -> simple t = true /\ forall q m, above q p -> at_trail ex_doc q <> Some (TNode KFixed m)) /\
  (exists ps, heard ex_tables true default_processor ex_doc = Ok ps) /\
  edit_range ex_tables true true all all ex_doc default_processor = Ok
   [TNode KOther [TNode KOpaque [nn "c" 0]; TNode KRelative [nn "c" 1; TNode KList [TNote (PNode (txt "c") (Some 0) None) []; TNode KList [TNote (PNode (txt "d") (Some 0) None) []]]]];
    TNode KRelative [TNode KList [nn "c" 0]];
    TNode KList [TNode KRelative [nn "c" 2; TNode KList [TNote (PNode (txt "e") (Some 0) None) []]]]].
Proof.
  split; [repeat constructor|]. split; [apply pick_spec; reflexivity|]. split; [apply pick_spec; reflexivity|].
  split; [rewrite <- pick_spec; discriminate|]. split; [rewrite <- pick_spec; discriminate|]. split; [|split; [eexists; vm_compute; reflexivity|vm_compute; reflexivity]].
  intros p t C. apply pick_spec in C.
  assert (L : p = [0; 1]%nat \/ p = [2; 0]%nat).
  { destruct p as [|i q]; [discriminate|]. destruct i as [|[|[|i]]]; [|destruct q; discriminate| |destruct i; discriminate].
    - destruct q as [|j q]; [discriminate|]. destruct j as [|[|j]]; [destruct q as [|[|[|k]] [|[|m] q]]; discriminate| |destruct j; discriminate]. destruct q; [now left|discriminate].
    - destruct q as [|j q]; [discriminate|]. destruct j as [|j]; [|destruct j; discriminate]. destruct q; [now right|discriminate]. }
  destruct L as [-> | ->]; cbn; intros [= <-]; (split; [reflexivity|]); intros q m (N & r & NR & E); destruct q as [|a [|b q]]; try congruence; injection E as <- E; try discriminate;
    destruct q; destruct r; try discriminate; congruence.
Qed.

(** With a selection of the inner list only, that is made relative. *)
Example C110_selection_witness : let inr p := match p with [0%nat] | [0%nat; 1%nat] | [0%nat; 1%nat; 1%nat] | [0%nat; 1%nat; 1%nat; 0%nat] => true | _ => false end in
  let whole p := match p with [0%nat; 1%nat; 1%nat] | [0%nat; 1%nat; 1%nat; 0%nat] => true | _ => false end in
  chosen inr whole ex_doc [0%nat; 1%nat; 1%nat] /\
  edit_range ex_tables true true inr whole ex_doc default_processor = Ok
   [TNode KOther [TNode KOpaque [nn "c" 0]; TNode KList [nn "c" 1; TNode KRelative [nn "c" 1; TNode KList [TNote (PNode (txt "d") (Some 0) None) []]]]];
    TNode KRelative [TNode KList [nn "c" 0]]; TNode KList [TNode KList [nn "e" 2]]].
Proof. split; [apply pick_spec; reflexivity|vm_compute; reflexivity]. Qed.

(** Music in \fixed is made relative, too, and its octave is lost:
    \fixed c'' { c } sounds as c'' and becomes \fixed c'' \relative c { c }, which is c. *)
Theorem C110_fixed_finding : let doc := [TNode KFixed [nn "c" 2; TNode KList [nn "c" 0]]] in
  heard ex_tables true default_processor doc = Ok [Pitch 1 0 0] /\
  exists doc', edit_range ex_tables true true all all doc default_processor = Ok doc' /\ heard ex_tables true default_processor doc' = Ok [Pitch (-1) 0 0].
Proof. split; [vm_compute; reflexivity|]. eexists. split; vm_compute; reflexivity. Qed.
Print Assumptions C110_fixed_finding.

(** \chordmode is converted, although \relative has no effect on it:
    \chordmode { c' } becomes \relative c' \chordmode { c }. *)
Theorem C110_chordmode_finding : let doc := [TNode KChordMode [TNode KList [nn "c" 1]]] in
  heard ex_tables true default_processor doc = Ok [Pitch 0 0 0] /\
  exists doc', edit_range ex_tables true true all all doc default_processor = Ok doc' /\ heard ex_tables true default_processor doc' = Ok [Pitch (-1) 0 0].
Proof. split; [vm_compute; reflexivity|]. eexists. split; vm_compute; reflexivity. Qed.
Print Assumptions C110_chordmode_finding.

(** A \language command before the music is not followed. *)
Theorem C110_language_finding :
  let T := ex_tables ++ [(txt "italiano", (1%nat, [(txt "do", (-1, 0, 0%Q)); (txt "si", (-1, 6, 0%Q))]))] in
  let doc := [TLang (txt "italiano"); TNode KList [nn "si" 1]] in
  heard T true default_processor doc = Ok [Pitch 0 6 0] /\ edit_range T true true all all doc default_processor = Err KeyError.
Proof. split; vm_compute; reflexivity. Qed.
Print Assumptions C110_language_finding.

(** When the language changes in the list before its first note, the start pitch
    is written in front of the \language command with a name of the new language:
    { \language "italiano" si' } becomes \relative do'' { \language "italiano" si }. *)
Theorem C110_start_language_finding :
  let T := ex_tables ++ [(txt "italiano", (1%nat, [(txt "do", (-1, 0, 0%Q)); (txt "si", (-1, 6, 0%Q))]))] in
  let doc := [TNode KList [TLang (txt "italiano"); nn "si" 1]] in
  heard T true default_processor doc = Ok [Pitch 0 6 0] /\
  exists doc', edit_range T true true all all doc default_processor = Ok doc' /\ heard T true default_processor doc' = Err KeyError.
Proof. split; [vm_compute; reflexivity|]. eexists. split; vm_compute; reflexivity. Qed.
Print Assumptions C110_start_language_finding.

(** The ancestor of the range and what is above it is not looked at.  When the
    range starts within \relative, relative music is made relative again: for a
    selection of the two lists in \relative { { c' } { c' } }, the document being [the \relative] around [doc]. *)
Theorem C110_inside_finding : let doc := [TNode KList [nn "c" 1]; TNode KList [nn "c" 1]] in
  heard ex_tables true default_processor [TNode KRelative [TNode KList doc]] = Ok [Pitch 0 0 0; Pitch 1 0 0] /\
  exists doc', edit_range ex_tables true true all all doc default_processor = Ok doc' /\
    heard ex_tables true default_processor [TNode KRelative [TNode KList doc']] = Ok [Pitch 0 0 0; Pitch 0 0 0].
Proof. split; [vm_compute; reflexivity|]. eexists. split; vm_compute; reflexivity. Qed.
Print Assumptions C110_inside_finding.

(** The list that is given itself is never made relative. *)
Theorem C110_itself_finding : edit_range ex_tables true true all all [nn "c" 1; nn "d" 1] default_processor = Ok [nn "c" 1; nn "d" 1].
Proof. reflexivity. Qed.
Print Assumptions C110_itself_finding.

(** A list with nothing but chords is left as it is. *)
Theorem C110_chords_finding : let doc := [TNode KList [TNode KChord [TNode KOther [nn "c" 1; nn "e" 1]]]] in
  edit_range ex_tables true true all all doc default_processor = Ok doc.
Proof. reflexivity. Qed.
Print Assumptions C110_chords_finding.
