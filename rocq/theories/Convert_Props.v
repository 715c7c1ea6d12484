(** Property C113: arguments become what the command means. *)
From Coq Require Import List Arith Bool Lia.
From Verif Require Import Base Build_Model Build_Spec Build_Proofs Signature_Model Signature_Spec Signature_Proofs Signature_Props Convert_Model Convert_Spec Convert_Proofs.
Import ListNotations.

(** Reading music, every command gets its own arguments (as in C112), and in the document they are what the command means: the reference pitches of \relative,
    \fixed, \transpose, \key and the like are pitches although they were read as notes, the durations of \partial, \tempo and \tuplet are durations and the numbers
    of \ottava, \scaleDurations, \set and the like are numbers although they were read as durations without a note; music is left as it is.
    Missing for the full claim: what C112 excludes, and a duration without a note as the music of \tuplet, \scaleDurations or \shiftDurations
    ([no_bare], see C113_bare_finding). *)
Theorem C113_arguments_partial : forall to_int ds, Forall complete ds -> separate ds -> Forall no_bare ds ->
  create_music to_int (flat_map nodes_of ds) = Ok (map (wanted to_int) ds).
Proof. exact music_created. Qed.
Print Assumptions C113_arguments_partial.

(** Whatever the stream of elements is: reading never fails, the elements are arranged as in C112, and each of them gets its arguments with the
    add_argument method of its own class. *)
Theorem C113_any_stream : forall to_int nodes, exists out,
  create_music to_int nodes = Ok (map (made (lily_add_argument to_int)) out) /\ build_lily nodes = Ok (map tree_of out) /\ flat_map nodes_of out = nodes.
Proof.
  intros to_int nodes. destruct (made_spec lily_signatures lily_ignored lily_sensible (lily_add_argument to_int) (add_keeps to_int) nodes) as (out & A & B & C & D0).
  exists out. split; [exact A|]. split; [|exact B]. rewrite <- B. apply plain_complete; auto. exact lily_sensible.
Qed.
Print Assumptions C113_any_stream.

(** The music of \tuplet is made a Duration, and the music of \scaleDurations a number, if it is a duration without a note. *)
Theorem C113_bare_finding : forall to_int i, to_int (node 9 KDuration) = Some i ->
  create_music to_int [node 0 KTuplet; node 1 KFraction; B 2 (number KUnpitched) [node 3 KDuration]; B 4 (number KUnpitched) [node 5 KDuration]] =
    Ok [B 0 (number KTuplet) [node 1 KFraction; node 3 KDuration; node 5 KDuration]] /\
  create_music to_int [node 0 KScaleDurations; node 1 KFraction; B 2 (number KUnpitched) [node 9 KDuration]] =
    Ok [B 0 (number KScaleDurations) [node 1 KFraction; i]].
Proof.
  intros to_int i H. split; [vm_compute; reflexivity|].
  vm_compute in H |- *. rewrite H. reflexivity.
Qed.
Print Assumptions C113_bare_finding.

(** \transpose c %{ %} d \relative c' { } \tuplet 3/2 4 \relative c' d \ottava 1 \tempo "x" 4 = 120 \key c \major *)
Definition bare (i : nat) : dt := D (B i (number KUnpitched) [node (S i) KDuration]) [].
Definition ex_convert : list dt :=
  [D (node 0 KTranspose) [leaf 1 KNote; leaf 2 KMultilineComment; leaf 3 KNote; D (node 4 KRelative) [leaf 5 KNote; leaf 6 KMusicList]];
   D (node 7 KTuplet) [leaf 8 KFraction; bare 9; D (node 11 KRelative) [leaf 12 KNote; leaf 13 KNote]];
   D (node 14 KOttava) [bare 15];
   D (node 17 KTempo) [leaf 18 KString; bare 19; leaf 21 KEqualSign; leaf 22 KInt];
   D (node 23 KKey) [leaf 24 KNote; leaf 25 KMode]].
Definition an_int (d : bt) : option bt := Some (node (b_id d) KInt).

Fixpoint no_bareb (d : dt) : bool :=
  match d with
  | D t added =>
      (negb (existsb (fun c => Nat.eqb (b_ty t) (number c)) [KTuplet; KScaleDurations; KShiftDurations]) ||
       match rev added with [] => true | d :: _ => negb (Nat.eqb (b_ty (d_node d)) (number KUnpitched)) end) && forallb no_bareb added
  end.
Lemma no_bareb_ok : forall d, no_bareb d = true -> no_bare d.
Proof.
  induction d as [t l IH] using dt_ind2. cbn [no_bareb]. intros H. apply andb_true_iff in H. destruct H as [H1 H2]. constructor.
  - intros c p d I Ic -> U. rewrite rev_app_distr in H1. cbn [rev app] in H1. unfold is_class in *. rewrite U, Nat.eqb_refl in H1. cbn [negb] in H1. rewrite orb_false_r in H1.
    apply negb_true_iff in H1. assert (X : existsb (fun c => Nat.eqb (b_ty t) (number c)) [KTuplet; KScaleDurations; KShiftDurations] = true) by (apply existsb_exists; exists c; split; [exact Ic|rewrite I; apply Nat.eqb_refl]).
    rewrite X in H1. discriminate.
  - clear H1. induction IH as [|d r Pd F IHr]; constructor; cbn [forallb] in H2; apply andb_true_iff in H2; destruct H2; auto.
Qed.

Example C113_witness : Forall complete ex_convert /\ separate ex_convert /\ Forall no_bare ex_convert /\
  create_music an_int (flat_map nodes_of ex_convert) =
    Ok [B 0 (number KTranspose) [node 1 KPitch; node 2 KMultilineComment; node 3 KPitch; B 4 (number KRelative) [node 5 KPitch; node 6 KMusicList]];
        B 7 (number KTuplet) [node 8 KFraction; node 10 KDuration; B 11 (number KRelative) [node 12 KPitch; node 13 KNote]];
        B 14 (number KOttava) [node 16 KInt];
        B 17 (number KTempo) [node 18 KString; node 20 KDuration; node 21 KEqualSign; node 22 KInt];
        B 23 (number KKey) [node 24 KPitch; node 25 KMode]].
Proof.
  split; [|split; [|split]].
  - repeat (apply Forall_cons; [apply completeb_ok; vm_compute; reflexivity|]). apply Forall_nil.
  - apply separateb_ok. vm_compute. reflexivity.
  - repeat (apply Forall_cons; [apply no_bareb_ok; vm_compute; reflexivity|]). apply Forall_nil.
  - vm_compute. reflexivity.
Qed.
