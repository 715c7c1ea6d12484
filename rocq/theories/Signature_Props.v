(** Property C112: commands get their own arguments. *)
From Coq Require Import List Arith Bool Lia.
From Verif Require Import Base Build_Model Build_Spec Build_Proofs Signature_Model Signature_Spec Signature_Proofs.
Import ListNotations.

(** Reading a stream of LilyPond elements in which every command is followed by the arguments that it takes in LilyPond, nested to any depth and with comments
    between them, every command gets exactly its own arguments.
    Missing for the full claim: music commands that quickly does not know as music ([other_music], see C112_not_music_finding); arguments that the signatures do
    not have ([missed], see C112_missed_finding); and comments directly after a command that could have had more arguments (see C112_comment_finding). *)
Theorem C112_arguments_partial : forall ds, Forall complete ds -> separate ds ->
  build_lily (flat_map nodes_of ds) = Ok (map tree_of ds).
Proof. exact lily_build. Qed.
Print Assumptions C112_arguments_partial.

(** Whatever the stream of elements is: reading never fails, no element is lost or moved, and arguments are given only to a command whose signature they fit. *)
Theorem C112_any_stream : forall nodes, exists out,
  build_lily nodes = Ok (map tree_of out) /\ flat_map nodes_of out = nodes /\ preorders (map tree_of out) = preorders nodes /\
  Forall (valid lily_signatures lily_ignored) out /\ greedy lily_signatures lily_ignored out.
Proof.
  intros nodes. destruct (plain_spec lily_signatures lily_ignored lily_sensible nodes) as (out & A & B & C & D0). exists out.
  split; [exact A|]. split; [exact B|]. split; [|split; assumption]. rewrite <- B. clear.
  assert (P : forall i y k, preorder (B i y k) = (i, y) :: preorders k) by reflexivity.
  assert (Q : forall d, preorder (tree_of d) = preorders (nodes_of d)).
  { induction d as [t l IH] using dt_ind2. cbn [tree_of nodes_of]. rewrite P. unfold preorders in *. rewrite flat_map_app. cbn [flat_map].
    destruct t as [i y k]. cbn [b_id b_ty b_kids]. rewrite P. cbn [app]. f_equal. unfold preorders. f_equal.
    induction IH as [|d r Pd F IHr]; [reflexivity|]. cbn [map flat_map]. rewrite Pd, IHr, flat_map_app. reflexivity. }
  induction out as [|d r IH]; [reflexivity|]. cbn [map flat_map]. unfold preorders in *. cbn [flat_map]. rewrite Q, IH. unfold preorders. rewrite flat_map_app. reflexivity.
Qed.
Print Assumptions C112_any_stream.

(** The isinstance test of the model is the derivation of classes. *)
Definition closed : bool :=
  forallb (fun c => subclass 5 c c && forallb (fun b => forallb (fun d => negb (subclass 5 b d) || subclass 5 c d) all_classes) (bases c)) all_classes.
Theorem C112_isinstance : forall tuple c, isinstance tuple c = true <-> exists d, In d tuple /\ derives c d.
Proof.
  assert (S : forall n c d, subclass n c d = true -> derives c d).
  { induction n as [|n IH]; intros c d H; cbn [subclass] in H; apply orb_true_iff in H; destruct H as [H|H].
    - apply Nat.eqb_eq, number_inj in H. subst. constructor.
    - discriminate.
    - apply Nat.eqb_eq, number_inj in H. subst. constructor.
    - apply existsb_exists in H. destruct H as (b & I & H). econstructor; eauto. }
  assert (K : closed = true) by (vm_compute; reflexivity).
  assert (T : forall c d, derives c d -> subclass 5 c d = true).
  { induction 1 as [c|c b d I D IH].
    - pose proof (proj1 (forallb_forall _ _) K c (in_all c)) as Q. cbn beta in Q. apply andb_true_iff in Q. apply Q.
    - pose proof (proj1 (forallb_forall _ _) K c (in_all c)) as Q. cbn beta in Q. apply andb_true_iff in Q. destruct Q as [_ Q].
      apply (proj1 (forallb_forall _ _) Q) in I. apply (proj1 (forallb_forall _ _)) with (x := d) in I; [|apply in_all]. rewrite IH in I. exact I. }
  intros tuple c. unfold isinstance. rewrite existsb_exists. split; intros (d & I & H); exists d; eauto.
Qed.
Print Assumptions C112_isinstance.

(** Every element class of music in LilyPond that is missing as music: the command before it does not get it. *)
Theorem C112_not_music_finding : forall c, In c other_music ->
  build_lily [node 0 KOnce; node 1 c] = Ok [node 0 KOnce; node 1 c] /\
  build_lily [node 0 KRelative; node 1 KNote; node 2 c] = Ok [B 0 (number KRelative) [node 1 KNote]; node 2 c].
Proof. intros c I. repeat (destruct I as [<-|I]; [split; vm_compute; reflexivity|]). destruct I. Qed.
Print Assumptions C112_not_music_finding.

(** Arguments that LilyPond takes and that are not all given to the command. *)
Theorem C112_missed_finding : forall c args, In (c, args) missed ->
  exists out, build_lily (node 0 c :: number_from 1 args) = Ok out /\ out <> [B 0 (number c) (number_from 1 args)].
Proof.
  intros c args I. unfold missed in I.
  repeat (destruct I as [E|I]; [injection E as <- <-; eexists; split; [vm_compute; reflexivity|vm_compute; congruence]|]). destruct I.
Qed.
Print Assumptions C112_missed_finding.

(** A comment after a command that is complete but could have had more arguments becomes a child of the command, and so does one after a generic music function. *)
Theorem C112_comment_finding :
  build_lily [node 0 KRepeat; node 1 KSymbol; node 2 KInt; node 3 KMusicList; node 4 KSinglelineComment; node 5 KNote] =
    Ok [B 0 (number KRepeat) [node 1 KSymbol; node 2 KInt; node 3 KMusicList; node 4 KSinglelineComment]; node 5 KNote] /\
  build_lily [node 0 KMusicFunction; node 1 KSinglelineComment; node 2 KNote] =
    Ok [B 0 (number KMusicFunction) [node 1 KSinglelineComment]; node 2 KNote] /\
  build_lily [node 0 KClef; node 1 KSymbol; node 2 KSinglelineComment; node 3 KNote] =
    Ok [B 0 (number KClef) [node 1 KSymbol]; node 2 KSinglelineComment; node 3 KNote].
Proof. vm_compute. auto. Qed.
Print Assumptions C112_comment_finding.

(** A note with \rest as the only music of \relative: the music after it is taken too. *)
Theorem C112_relative_finding :
  build_lily [node 0 KRelative; node 1 KPitchedRest; node 2 KMusicList] = Ok [B 0 (number KRelative) [node 1 KPitchedRest; node 2 KMusicList]].
Proof. vm_compute. reflexivity. Qed.
Print Assumptions C112_relative_finding.

(** \new Staff = "a" \relative %{ %} c' \repeat volta 2 { } \alternative { } \clef bass %{ %} \tempo "x" 4 = 120 *)
Definition leaf (i : nat) (c : cls) : dt := D (node i c) [].
Definition ex_music : list dt :=
  [D (node 0 KNew) [leaf 1 KSymbol; leaf 2 KEqualSign; leaf 3 KString;
     D (node 4 KRelative) [leaf 5 KMultilineComment; leaf 6 KNote;
       D (node 7 KRepeat) [leaf 8 KSymbol; leaf 9 KInt; leaf 10 KMusicList; D (node 11 KAlternative) [leaf 12 KMusicList]]]];
   D (node 13 KClef) [leaf 14 KSymbol]; leaf 15 KMultilineComment;
   D (node 16 KTempo) [leaf 17 KString; leaf 18 KUnpitched; leaf 19 KEqualSign; leaf 20 KInt]].

Example C112_witness : Forall complete ex_music /\ separate ex_music /\
  map b_id (flat_map nodes_of ex_music) = seq 0 21 /\ map b_id (map tree_of ex_music) = [0; 13; 15; 16].
Proof.
  split; [|split; [apply separateb_ok; vm_compute; reflexivity|split; reflexivity]].
  repeat constructor; apply completeb_ok; vm_compute; reflexivity.
Qed.
