(** New nodes for pitches (part of property C15). *)
From Coq Require Import String Ascii List ZArith QArith Bool Lia.
From Verif Require Import Base Pitch_Model Pitch_Spec Pitch_Proofs Pitch_Props Pitchable_Model.
Import ListNotations.
Local Open Scope Z_scope.

(** Every pitch that the language has a name for gets a node: it is read as this pitch, has no octave check, and its text is that of to_string();
    for any other pitch a KeyError is raised. *)
Theorem C15_pitchable : forall T P p t, tables_ok T -> lang_table T (language P) = Ok t ->
  match pitchable T P p with
  | Ok n => (exists q, read_node T P n = Ok q /\ peq q p) /\ oct_check n = None /\ pitch_to_string T P p = Ok (node_text n)
  | Err e => e = KeyError /\ ~ exists name o, names_pitch t name o (note p) (alter p)
  end.
Proof.
  intros T P p t OK TL. unfold pitchable, pitch_to_string. destruct (name_octave T P p) as [[name k]|e] eqn:N; cbn [bindr]; [|exact (name_octave_error T P p t e TL N)].
  destruct (name_octave_sound _ _ _ _ _ N) as (t' & o & TL' & (a' & I & EA) & EO & _). split; [|split].
  - unfold read_node. rewrite head_set, node_octave_set. cbn [head]. unfold pitch_of_name. rewrite TL'. cbn [bindr]. rewrite (dget_str_unique _ _ _ (lang_table_ok _ _ _ OK TL') I). cbn [bindr].
    eexists. split; [reflexivity|]. split; [cbn; lia|]. split; [reflexivity|exact EA].
  - apply check_set.
  - unfold node_text, set_node_octave. cbn [octave_child head oct_check]. destruct (Z.eqb_spec k 0) as [->|NZ]; cbn [octave_child head oct_check]; now rewrite !app_nil_r.
Qed.
Print Assumptions C15_pitchable.

(** Translating the names of notes with two languages, there and back, keeps the pitches. *)
Theorem C15_translate : forall T P1 P2 n p n2, tables_ok T -> read_node T P1 n = Ok p -> pitchable T P2 p = Ok n2 ->
  exists q n1 q1, read_node T P2 n2 = Ok q /\ peq q p /\ pitchable T P1 q = Ok n1 /\ read_node T P1 n1 = Ok q1 /\ peq q1 p.
Proof.
  intros T P1 P2 n p n2 OK R W.
  assert (L2 : exists t, lang_table T (language P2) = Ok t). { unfold pitchable, name_octave in W. destruct (lang_table T (language P2)) as [t|]; [eauto|discriminate]. }
  destruct L2 as (t2 & L2). pose proof (C15_pitchable T P2 p t2 OK L2) as C. rewrite W in C. destruct C as ((q & RQ & PQ) & _).
  assert (L1 : exists t, lang_table T (language P1) = Ok t). { unfold read_node, pitch_of_name in R. destruct (lang_table T (language P1)) as [t|]; [eauto|discriminate]. }
  destruct L1 as (t1 & L1). exists q. pose proof (C15_pitchable T P1 q t1 OK L1) as C. destruct PQ as (PO & PN & PA). destruct (pitchable T P1 q) as [n1|e].
  - destruct C as ((q1 & RQ1 & (O1 & N1 & A1)) & _). exists n1, q1. split; [exact RQ|]. split; [now split|]. split; [reflexivity|]. split; [exact RQ1|]. split; [congruence|]. split; [congruence|]. eapply Qeq_trans; eassumption.
  - exfalso. destruct C as [_ C]. apply C. unfold read_node, pitch_of_name in R. rewrite L1 in R. cbn [bindr] in R. destruct (dget str_eqb t1 (head n)) as [[[o nt] a]|] eqn:D; cbn [bindr] in R; [|discriminate]. injection R as <-. cbn [note alter octave] in *.
    exists (head n), o. exists a. split; [|now apply Qeq_sym]. rewrite PN. revert D. clear. induction t1 as [|[k v] t IH]; cbn [dget]; [discriminate|]. destruct (str_eqb_spec k (head n)) as [->|NE]; [intros [= ->]; now left|]. intros D. right. now apply IH.
Qed.
Print Assumptions C15_translate.

(** format(pitch) is the name in the default language, or a question mark if there is none. *)
Theorem C15_format : forall T p t, lang_table T (txt "nederlands") = Ok t ->
  (exists name o k, names_pitch t name o (note p) (alter p) /\ o + k = octave p /\ pitch_format T p = Ok (name ++ octave_to_string k)) \/
  (~ (exists name o, names_pitch t name o (note p) (alter p))) /\ pitch_format T p = Ok (txt "?").
Proof.
  intros T p t TL. unfold pitch_format, pitch_to_string. destruct (name_octave T default_processor p) as [[name k]|e] eqn:N; cbn [bindr].
  - left. destruct (name_octave_sound _ _ _ _ _ N) as (t' & o & TL' & A & B & _). cbn [language default_processor] in TL'. replace t' with t in * by congruence. exists name, o, k. auto.
  - right. destruct (name_octave_error T default_processor p t e TL N) as [-> H]. auto.
Qed.
Print Assumptions C15_format.

(** Only a language that exists can be set, and nothing else changes. *)
Theorem C15_language : forall T P l, match set_language T P l with
  | Ok P' => (exists t, lang_table T l = Ok t) /\ language P' = l /\ prefer_long P' = prefer_long P /\ prefer_accented P' = prefer_accented P /\ prefer_x P' = prefer_x P /\
      prefer_double_s P' = prefer_double_s P /\ prefer_classic P' = prefer_classic P /\ prefer_deprecated P' = prefer_deprecated P
  | Err e => e = KeyError /\ forall x, In x T -> fst x <> l
  end.
Proof.
  intros T P l. unfold set_language. destruct (lang_table T l) as [t|e] eqn:L; cbn [bindr]; [split; [eauto|repeat split]|].
  unfold lang_table in L. destruct (dget str_eqb T l) as [[i t]|] eqn:D; [discriminate|]. split; [congruence|]. intros [k v] I E. cbn in E. subst k. revert D. clear L. induction T as [|[k v'] T IH]; [destruct I|]. cbn [dget]. destruct I as [[= -> ->]|I].
  - rewrite str_eqb_refl. discriminate.
  - destruct (str_eqb _ _); [discriminate|]. now apply IH.
Qed.
Print Assumptions C15_language.

Example C15_pitchable_witness : tables_ok ex_T /\ lang_table ex_T (language default_processor) = Ok ex_t /\
  pitchable ex_T default_processor (Pitch 1 2 (-1#2)) = Ok (PNode (txt "es") (Some 2) None) /\ node_text (PNode (txt "es") (Some 2) None) = txt "es''" /\
  pitchable ex_T default_processor (Pitch (-1) 3 0) = Err KeyError /\ pitch_format ex_T (Pitch (-1) 3 0) = Ok (txt "?") /\ pitch_format ex_T (Pitch (-1) 3 (1#2)) = Ok (txt "fis").
Proof. split; [exact ex_T_ok|]. repeat (split; [vm_compute; reflexivity|]). vm_compute. reflexivity. Qed.
